(** A parser for the grammar of RustSpec.v, and the proof that the grammar gives every text at most one reading. *)
From Coq Require Import String Ascii List Arith ZArith Bool Lia.
From Verif Require Import CppSpec CppParse RustSpec.
Import ListNotations.
Open Scope string_scope.
Open Scope nat_scope.
Open Scope list_scope.

Fixpoint parse_rs_path (ts : list token) : option (list string * list token) :=
  match ts with
  | TWord s :: r =>
      if is_in s rs_keywords then None
      else match r with
           | TPunct c :: r' =>
               if String.eqb c "::" then match parse_rs_path r' with Some (p, q) => Some (s :: p, q) | None => None end
               else Some ([s], r)
           | _ => Some ([s], r)
           end
  | _ => None
  end.
Definition is_w (s : string) (t : token) : bool := match t with TWord o => String.eqb o s | _ => false end.
(** The arguments of a type would begin. *)
Definition opens (ts : list token) : bool := match ts with t :: _ => is_p "<" t | [] => false end.

(** Casts behind [a]. *)
Fixpoint rcasts (k : nat) (a : rexp) (ts : list token) : option (rexp * list token) :=
  match k with
  | O => None
  | S k =>
      match ts with
      | t :: r =>
          if is_w "as" t then
            match parse_rs_path r with
            | Some (p, r') => if opens r' then None else rcasts k (RCast a p) r'
            | None => None
            end
          else Some (a, ts)
      | [] => Some (a, ts)
      end
  end.

Fixpoint rparse (k n : nat) (ts : list token) : option (rexp * list token) :=
  match k with
  | O => None
  | S k =>
      match n with
      | 0 =>
          match rparse k 1 ts with
          | Some (a, q :: r) =>
              match op_in rs_comparisons q with
              | Some o => match rparse k 1 r with Some (b, r') => Some (RBin o a b, r') | None => None end
              | None => Some (a, q :: r)
              end
          | x => x
          end
      | 3 => match rparse k 4 ts with Some (a, r) => rcasts k a r | None => None end
      | 4 =>
          match ts with
          | t :: r =>
              match op_in rs_unops t with
              | Some o => match rparse k 4 r with Some (a, r') => Some (RUn o a, r') | None => None end
              | None => rparse k 5 ts
              end
          | [] => None
          end
      | 5 => match rprim k ts with Some (a, r) => rpost k a r | None => None end
      | _ => match rparse k (S n) ts with Some (a, r) => rloop k n a r | None => None end
      end
  end
with rloop (k n : nat) (a : rexp) (ts : list token) : option (rexp * list token) :=
  match k with
  | O => None
  | S k =>
      match ts with
      | t :: r =>
          match op_in (rs_binops n) t with
          | Some o => match rparse k (S n) r with Some (b, r') => rloop k n (RBin o a b) r' | None => None end
          | None => Some (a, ts)
          end
      | [] => Some (a, ts)
      end
  end
with rpost (k : nat) (a : rexp) (ts : list token) : option (rexp * list token) :=
  match k with
  | O => None
  | S k =>
      match ts with
      | t :: r =>
          if is_p "(" t then
            match rlist k r with Some (l, r') => rpost k (RCall a l) r' | None => None end
          else if is_p "[" t then
            match rparse k 0 r with
            | Some (i, v :: r2) => if is_p "]" v then rpost k (RIndex a i) r2 else None
            | _ => None
            end
          else if is_p "." t then
            match r with
            | TWord f :: r' =>
                if is_in f rs_keywords then None
                else match r' with
                     | u :: r2 =>
                         if is_p "(" u then
                           match rlist k r2 with Some (l, r3) => rpost k (RMethod a f l) r3 | None => None end
                         else rpost k (RField a f) r'
                     | [] => rpost k (RField a f) r'
                     end
            | _ => None
            end
          else Some (a, ts)
      | [] => Some (a, ts)
      end
  end
(* Arguments and the closing parenthesis. *)
with rlist (k : nat) (ts : list token) : option (list rexp * list token) :=
  match k with
  | O => None
  | S k =>
      match ts with
      | u :: r =>
          if is_p ")" u then Some ([], r)
          else match rargs k ts with
               | Some (l, v :: r2) => if is_p ")" v then Some (l, r2) else None
               | _ => None
               end
      | [] => None
      end
  end
with rargs (k : nat) (ts : list token) : option (list rexp * list token) :=
  match k with
  | O => None
  | S k =>
      match rparse k 0 ts with
      | Some (a, t :: r) =>
          if is_p "," t then match rargs k r with Some (l, r') => Some (a :: l, r') | None => None end
          else Some ([a], t :: r)
      | Some (a, []) => Some ([a], [])
      | None => None
      end
  end
with rprim (k : nat) (ts : list token) : option (rexp * list token) :=
  match k with
  | O => None
  | S k =>
      match ts with
      | TNum s :: r => Some (RNum s, r)
      | TWord w :: r =>
          if is_in w rs_keywords then
            if String.eqb w "true" then Some (RBool true, r)
            else if String.eqb w "false" then Some (RBool false, r)
            else if String.eqb w "if" then
              match rparse k 0 r with
              | Some (c, u :: r1) =>
                  if is_p "{" u then
                    match rparse k 0 r1 with
                    | Some (a, u2 :: u3 :: u4 :: r2) =>
                        if is_p "}" u2 && is_w "else" u3 && is_p "{" u4 then
                          match rparse k 0 r2 with
                          | Some (b, u5 :: r3) => if is_p "}" u5 then Some (RIf c a b, r3) else None
                          | _ => None
                          end
                        else None
                    | _ => None
                    end
                  else None
              | _ => None
              end
            else None
          else match parse_rs_path ts with Some (p, r1) => Some (RId p, r1) | None => None end
      | t :: r =>
          if is_p "(" t then
            match rargs k r with
            | Some ([a], x :: r1) => if is_p ")" x then Some (a, r1) else None
            | Some (a :: b :: l, x :: r1) => if is_p ")" x then Some (RTuple (a :: b :: l), r1) else None
            | _ => None
            end
          else None
      | [] => None
      end
  end.

(** What cannot follow a complete expression of level [n] with this ending. *)
Definition rfollow (n : nat) (z : ending) (rest : list token) : Prop :=
  match rest with
  | TPunct o :: _ =>
      (forall m, n <= m -> is_in o (rs_binops m) = false) /\ is_in o ["("; "."; "["; "::"] = false /\
      (n = 0 -> is_in o rs_comparisons = false) /\ (z = EType -> o <> "<")
  | TWord w :: _ => n <= 3 -> w <> "as"
  | _ => True
  end.
Definition rfollow5 (z : ending) (rest : list token) : Prop :=
  match rest with TPunct o :: _ => o <> "::" /\ (z = EField -> o <> "(") | _ => True end.

Lemma rfollow_mono n m z z' r : n <= m -> (z' = EType -> z = EType) -> rfollow n z r -> rfollow m z' r.
Proof.
  destruct r as [|[w|?|o] r]; cbn; auto.
  - intros L _ F Lm. apply F. lia.
  - intros L Z (F1 & F2 & F3 & F4). repeat split; auto.
    + intros p Lp. apply F1. lia.
    + intros ->. apply F3. lia.
Qed.
Lemma rfollow_5 n z z' r : rfollow n z r -> rfollow5 z' r.
Proof.
  destruct r as [|[|?|o] r]; cbn [rfollow rfollow5]; auto. intros (_ & F & _). split; [|intros _]; intros ->; discriminate.
Qed.

(** How expressions begin. *)
Definition rbegins (n : nat) (ts : list token) : Prop :=
  match ts with
  | TWord _ :: _ | TNum _ :: _ => True
  | TPunct o :: _ => o = "(" \/ (n <= 4 /\ In o rs_unops)
  | [] => False
  end.
Lemma rbegins_app n a b : rbegins n a -> rbegins n (a ++ b).
Proof. destruct a as [|[]]; cbn; tauto. Qed.
Lemma rbegins_mono n m a : n <= m -> rbegins m a -> rbegins n a.
Proof. destruct a as [|[]]; cbn; try tauto. intros L [H|[H I]]; auto. right. split; [lia|assumption]. Qed.
Lemma rs_path_begins ts p : rs_path ts p -> exists s r, ts = TWord s :: r /\ is_in s rs_keywords = false.
Proof. destruct 1; eauto. Qed.

Scheme rgram_mut := Minimality for rgram Sort Prop
  with rargs_mut := Minimality for rgram_args Sort Prop
  with rargs1_mut := Minimality for rgram_args1 Sort Prop.
Combined Scheme rgram_ind3 from rgram_mut, rargs_mut, rargs1_mut.

Lemma rs_binops_low n o : In o (rs_binops n) -> 1 <= n <= 2.
Proof. do 3 (destruct n as [|n]; [cbn; intros; try tauto; lia|]). cbn. tauto. Qed.

Lemma rgram_begins : (forall n z ts e, rgram n z ts e -> n <= 5 /\ rbegins n ts /\ (3 < n -> z <> EType)) /\
  (forall ts l, rgram_args ts l -> True) /\ (forall ts l, rgram_args1 ts l -> rbegins 0 ts).
Proof.
  apply (rgram_ind3 (fun n z ts e => n <= 5 /\ rbegins n ts /\ (3 < n -> z <> EType)) (fun _ _ => True) (fun ts _ => rbegins 0 ts)).
  - intros n z ts e L _ (L2 & B & Z). split; [lia|]. split; [apply (rbegins_mono n (S n)); [lia|assumption]|]. intros; lia.
  - intros z ts e _ (_ & B & _). split; [lia|]. split; [apply (rbegins_mono 4 5); [lia|assumption]|discriminate].
  - intros o z1 z2 t1 t2 a b _ _ _ (_ & B & _) _ _. split; [lia|]. split; [|lia]. apply rbegins_app. apply (rbegins_mono 0 1); [lia|assumption].
  - intros n o z1 z2 t1 t2 a b I _ (L & B & _) _ _. pose proof (rs_binops_low _ _ I).
    split; [assumption|]. split; [now apply rbegins_app|lia].
  - intros z t1 t2 a p _ (L & B & _) _. split; [lia|]. split; [now apply rbegins_app|lia].
  - intros o ts a I _ _. split; [lia|]. split; [|discriminate]. cbn. right. split; [lia|assumption].
  - intros z t1 t2 f l _ _ (L & B & _) _ _. split; [lia|]. split; [now apply rbegins_app|discriminate].
  - intros z t1 t2 a f l _ _ (L & B & _) _ _. split; [lia|]. split; [now apply rbegins_app|discriminate].
  - intros z ts a f _ _ (L & B & _). split; [lia|]. split; [now apply rbegins_app|discriminate].
  - intros z z2 t1 t2 a i _ (L & B & _) _ _. split; [lia|]. split; [now apply rbegins_app|discriminate].
  - intros ts p H. destruct (rs_path_begins _ _ H) as (s & r & -> & _). split; [lia|]. split; [exact Logic.I|discriminate].
  - intros. split; [lia|]. split; [exact Logic.I|discriminate].
  - split; [lia|]. split; [exact Logic.I|discriminate].
  - split; [lia|]. split; [exact Logic.I|discriminate].
  - intros. split; [lia|]. split; [now left|discriminate].
  - intros. split; [lia|]. split; [now left|discriminate].
  - intros. split; [lia|]. split; [exact Logic.I|discriminate].
  - exact Logic.I.
  - intros; exact Logic.I.
  - intros z ts a _ (_ & B & _). assumption.
  - intros z t1 t2 a l _ (_ & B & _) _ _. now apply rbegins_app.
Qed.

Lemma rs_path_parse ts p rest : rs_path ts p -> rfollow5 ENone rest -> parse_rs_path (ts ++ rest) = Some (p, rest).
Proof.
  intros H F. induction H as [s K|s ts p K H IH].
  - cbn [app parse_rs_path]. rewrite K. destruct rest as [|[|?|o] r]; auto. destruct F as [F _]. now destruct (String.eqb_spec o "::").
  - cbn [app parse_rs_path]. rewrite K. cbn [String.eqb Ascii.eqb Bool.eqb]. now rewrite IH.
Qed.

Definition rcomplete (n : nat) (z : ending) (ts : list token) (e : rexp) : Prop :=
  match n with
  | 1 | 2 => forall rest res, rfollow (S n) z rest -> ev (fun k => rloop k n e rest) res -> ev (fun k => rparse k n (ts ++ rest)) res
  | 3 => forall rest res, rfollow 4 z rest -> ev (fun k => rcasts k e rest) res -> ev (fun k => rparse k 3 (ts ++ rest)) res
  | 5 => forall rest res, rfollow5 z rest -> ev (fun k => rpost k e rest) res -> ev (fun k => rparse k 5 (ts ++ rest)) res
  | _ => forall rest, rfollow n z rest -> ev (fun k => rparse k n (ts ++ rest)) (e, rest)
  end.

Lemma rloop_stop n z e rest : rfollow n z rest -> ev (fun k => rloop k n e rest) (e, rest).
Proof.
  intros F. apply ev_now. intros k. cbn [rloop]. destruct rest as [|t r]; [reflexivity|].
  destruct t as [s|s|o]; cbn [op_in]; try reflexivity. destruct F as (F & _). now rewrite (F n (le_n n)).
Qed.
Lemma rcasts_stop z e rest : rfollow 3 z rest -> ev (fun k => rcasts k e rest) (e, rest).
Proof.
  intros F. apply ev_now. intros k. cbn [rcasts]. destruct rest as [|t r]; [reflexivity|].
  destruct t as [s|s|o]; cbn [is_w]; try reflexivity. cbn in F. destruct (String.eqb_spec s "as"); [|reflexivity]. exfalso. apply F; [lia|assumption].
Qed.
Lemma rpost_stop n z e rest : rfollow n z rest -> ev (fun k => rpost k e rest) (e, rest).
Proof.
  intros F. apply ev_now. intros k. cbn [rpost]. destruct rest as [|t r]; [reflexivity|].
  destruct t as [s|s|o]; cbn [is_p]; try reflexivity. destruct F as (_ & F & _).
  cbn in F. destruct (String.eqb o "("); [discriminate|]. destruct (String.eqb o "."); [discriminate|].
  destruct (String.eqb o "["); [discriminate|]. reflexivity.
Qed.
Lemma rcomplete_all n z ts e : n <= 5 -> rcomplete n z ts e ->
  forall rest, rfollow n z rest -> ev (fun k => rparse k n (ts ++ rest)) (e, rest).
Proof.
  intros L C rest F. destruct n as [|[|[|[|[|[|n]]]]]]; try (now apply C); try lia.
  - apply C; [|eapply rloop_stop; eassumption]. eapply rfollow_mono; [|exact (fun h => h)|exact F]. lia.
  - apply C; [|eapply rloop_stop; eassumption]. eapply rfollow_mono; [|exact (fun h => h)|exact F]. lia.
  - apply C; [|eapply rcasts_stop; eassumption]. eapply rfollow_mono; [|exact (fun h => h)|exact F]. lia.
  - apply C; [eapply rfollow_5; eassumption|eapply rpost_stop; eassumption].
Qed.
Ltac binop_cases := intros m Lm; do 3 (destruct m as [|m]; [(exfalso; lia) || reflexivity|]); reflexivity.
Lemma rfollow_op n z o r : In o (rs_binops n) -> rfollow (S n) z (TPunct o :: r).
Proof.
  intros I. pose proof (rs_binops_low _ _ I) as B. cbn [rfollow].
  assert (n = 1 \/ n = 2) as Hn by lia. clear B.
  repeat destruct Hn as [Hn|Hn]; subst n; cbn in I; repeat destruct I as [I|I]; try contradiction; subst o;
    (split; [binop_cases|split; [reflexivity|split; [lia|discriminate]]]).
Qed.
Lemma rfollow_cmp z o r : In o rs_comparisons -> (o = "<" -> z <> EType) -> rfollow 1 z (TPunct o :: r).
Proof.
  intros I Z. cbn [rfollow]. cbn in I. repeat destruct I as [I|I]; try contradiction; subst o;
    (split; [binop_cases|split; [reflexivity|split; [lia|]]]); try discriminate. intros ->. exfalso. now apply Z.
Qed.
Lemma rfollow_end n z o r : In o ["]"; ")"; ","; "{"; "}"] -> rfollow n z (TPunct o :: r).
Proof.
  intros H. cbn [rfollow]. cbn in H. repeat destruct H as [H|H]; try contradiction; subst o;
    (split; [binop_cases|split; [reflexivity|split; [reflexivity|discriminate]]]).
Qed.

Definition rargs_read (ts : list token) (l : list rexp) : Prop :=
  rbegins 0 ts /\ forall r, ev (fun k => rargs k (ts ++ TPunct ")" :: r)) (l, TPunct ")" :: r).
Definition rlist_read (ts : list token) (l : list rexp) : Prop :=
  forall r, ev (fun k => rlist k (ts ++ TPunct ")" :: r)) (l, r).

Lemma rargs_list ts l : rargs_read ts l -> rlist_read ts l.
Proof.
  intros [B H] r. refine (ev_step1 _ _ _ _ (H r) _). intros k E. cbn [rlist]. destruct ts as [|t ts]; [destruct B|]. cbn [app] in *.
  replace (is_p ")" t) with false.
  - now rewrite E.
  - destruct t as [s|s|o]; auto. cbn in B |- *. destruct B as [->|[_ B]]; [reflexivity|].
    cbn in B. repeat (destruct B as [<-|B]; [reflexivity|]). destruct B.
Qed.

Theorem rparse_complete :
  (forall n z ts e, rgram n z ts e -> rcomplete n z ts e) /\ (forall ts l, rgram_args ts l -> rlist_read ts l) /\
  (forall ts l, rgram_args1 ts l -> rargs_read ts l).
Proof.
  destruct rgram_begins as (GB & _ & GB1).
  assert (forall z t, rfollow 0 z (TPunct ")" :: t)) as FE by (intros; apply rfollow_end; cbn; auto).
  apply (rgram_ind3 rcomplete rlist_read rargs_read).
  - (* up *)
    intros n z ts e L H C. destruct n as [|[|[|[|n]]]]; try lia.
    + intros rest F. refine (ev_step1 _ _ _ _ (rcomplete_all 1 z ts e ltac:(lia) C rest (rfollow_mono 0 1 _ _ _ ltac:(lia) (fun h => h) F)) _).
      intros k E. cbn [rparse]. rewrite E. destruct rest as [|t r]; [reflexivity|].
      destruct t as [s|s|o]; cbn [op_in]; try reflexivity. destruct F as (_ & _ & F & _). now rewrite (F eq_refl).
    + intros rest res F Ho. refine (ev_step2 _ _ (e, rest) _ _ (rcomplete_all 2 z ts e ltac:(lia) C rest F) Ho _).
      intros k E. cbn [rparse]. now rewrite E.
    + intros rest res F Ho. refine (ev_step2 _ _ (e, rest) _ _ (rcomplete_all 3 z ts e ltac:(lia) C rest F) Ho _).
      intros k E. cbn [rparse]. now rewrite E.
    + intros rest res F Ho. refine (ev_step2 _ _ (e, rest) _ _ (rcomplete_all 4 z ts e ltac:(lia) C rest F) Ho _).
      intros k E. cbn [rparse]. now rewrite E.
  - (* up to 5 *)
    intros z ts e H C rest F. refine (ev_step _ (fun k => rparse k 5 (ts ++ rest)) _ _ _).
    + apply (C rest); [eapply rfollow_5; eassumption|eapply rpost_stop; eassumption].
    + intros k. cbn [rparse]. destruct (GB _ _ _ _ H) as (_ & B & _). destruct ts as [|t r]; [destruct B|]. cbn [app].
      destruct t as [s|s|o]; cbn [op_in]; try reflexivity. cbn in B. destruct B as [->|B]; [reflexivity|]. lia.
  - (* comparison *)
    intros o z1 z2 t1 t2 a b I Z _ Ca _ Cb rest F. rewrite <- app_assoc. cbn [app].
    pose proof (rcomplete_all 1 z1 t1 a ltac:(lia) Ca (TPunct o :: t2 ++ rest) (rfollow_cmp _ _ _ I Z)) as [k1 H1].
    pose proof (rcomplete_all 1 z2 t2 b ltac:(lia) Cb rest (rfollow_mono 0 1 _ _ _ ltac:(lia) (fun h => h) F)) as [k2 H2].
    exists (S (max k1 k2)). intros [|k] Lk; [lia|]. cbn [rparse]. rewrite H1 by lia. cbn [op_in].
    replace (is_in o rs_comparisons) with true by (symmetry; now apply is_in_In). now rewrite H2 by lia.
  - (* bin *)
    intros n o z1 z2 t1 t2 a b I _ Ca _ Cb.
    pose proof (rs_binops_low _ _ I) as L.
    assert (forall rest res, rfollow (S n) z2 rest -> ev (fun k => rloop k n (RBin o a b) rest) res ->
              ev (fun k => rparse k n ((t1 ++ TPunct o :: t2) ++ rest)) res) as G.
    { intros rest res F Ho. rewrite <- app_assoc. cbn [app].
      assert (ev (fun k => rloop k n a (TPunct o :: t2 ++ rest)) res) as HL.
      { refine (ev_step2 _ _ (b, rest) _ _ (rcomplete_all (S n) z2 t2 b ltac:(lia) Cb rest F) Ho _).
        intros k E. cbn [rloop op_in]. replace (is_in o (rs_binops n)) with true by (symmetry; now apply is_in_In). now rewrite E. }
      pose proof (rfollow_op n z1 o (t2 ++ rest) I) as Fo.
      clear F Ho I. destruct n as [|[|[|n]]]; try lia; exact (Ca _ _ Fo HL). }
    destruct n as [|[|[|n]]]; try lia; exact G.
  - (* cast *)
    intros z t1 t2 a p _ C Hp rest res F Ho. rewrite <- app_assoc. cbn [app]. apply C; [intros ?; lia|].
    refine (ev_step _ _ _ Ho _). intros k. cbn [rcasts is_w String.eqb Ascii.eqb Bool.eqb].
    rewrite (rs_path_parse t2 p rest Hp (rfollow_5 _ _ _ _ F)).
    replace (opens rest) with false; [reflexivity|]. destruct rest as [|[s|s|o] r]; try reflexivity. cbn. destruct F as (_ & _ & _ & F).
    symmetry. apply String.eqb_neq. now apply F.
  - (* unary *)
    intros o ts a I _ C rest F. refine (ev_step1 _ _ _ _ (C rest F) _).
    intros k E. cbn [app rparse op_in]. replace (is_in o rs_unops) with true by (symmetry; now apply is_in_In). now rewrite E.
  - (* call *)
    intros z t1 t2 f l Z _ Cf _ Ha rest res F Hp.
    rewrite <- app_assoc. cbn [app]. rewrite <- app_assoc. cbn [app]. apply Cf; [split; [discriminate|intros ->; congruence]|].
    refine (ev_step2 _ _ _ _ _ (Ha rest) Hp _). intros k E. cbn [rpost is_p String.eqb Ascii.eqb Bool.eqb]. now rewrite E.
  - (* method *)
    intros z t1 t2 a f l K _ Ca _ Ha rest res F Hp.
    rewrite <- app_assoc. cbn [app]. rewrite <- app_assoc. cbn [app]. apply Ca; [split; [discriminate|intros _; discriminate]|].
    refine (ev_step2 _ _ _ _ _ (Ha rest) Hp _). intros k E. cbn [rpost is_p String.eqb Ascii.eqb Bool.eqb]. now rewrite K, E.
  - (* field *)
    intros z ts a f K _ C rest res F Hp. rewrite <- app_assoc. cbn [app]. apply C; [split; [discriminate|intros _; discriminate]|].
    refine (ev_step _ _ _ Hp _). intros k. cbn [rpost is_p String.eqb Ascii.eqb Bool.eqb]. rewrite K.
    destruct rest as [|[s|s|o] r]; try reflexivity. cbn [is_p]. destruct F as [_ F].
    destruct (String.eqb_spec o "("); [|reflexivity]. exfalso. now apply F.
  - (* index *)
    intros z z2 t1 t2 a i _ C _ Ci rest res F Hp. rewrite <- app_assoc. cbn [app]. rewrite <- app_assoc. cbn [app].
    apply C; [split; [discriminate|intros _; discriminate]|].
    refine (ev_step2 _ _ _ _ _ (Ci (TPunct "]" :: rest) (rfollow_end 0 z2 "]" rest (or_introl eq_refl))) Hp _).
    intros k E. cbn [rpost is_p String.eqb Ascii.eqb Bool.eqb]. now rewrite E.
  - (* path *)
    intros ts p H rest res F Ho.
    refine (ev_step2 _ (fun k => rprim k (ts ++ rest)) (RId p, rest) _ _ _ Ho _).
    + apply ev_now. intros k. pose proof (rs_path_parse ts p rest H F) as Hq.
      destruct (rs_path_begins _ _ H) as (s & r & -> & K). cbn [app rprim] in Hq |- *. rewrite K. now rewrite Hq.
    + intros k E. cbn [rparse]. now rewrite E.
  - intros s rest res F Ho. refine (ev_step2 _ (fun k => rprim k (TNum s :: rest)) (RNum s, rest) _ _ _ Ho _).
    + now apply ev_now.
    + intros k E. cbn [app rparse]. now rewrite E.
  - intros rest res F Ho. refine (ev_step2 _ (fun k => rprim k (TWord "true" :: rest)) (RBool true, rest) _ _ _ Ho _).
    + now apply ev_now.
    + intros k E. cbn [app rparse]. now rewrite E.
  - intros rest res F Ho. refine (ev_step2 _ (fun k => rprim k (TWord "false" :: rest)) (RBool false, rest) _ _ _ Ho _).
    + now apply ev_now.
    + intros k E. cbn [app rparse]. now rewrite E.
  - (* paren *)
    intros z ts a _ C rest res F Ho. cbn [app]. rewrite <- app_assoc. cbn [app].
    refine (ev_step2 _ (fun k => rprim k (TPunct "(" :: ts ++ TPunct ")" :: rest)) (a, rest) _ _ _ Ho _).
    + refine (ev_step1 _ (fun k => rargs k (ts ++ TPunct ")" :: rest)) ([a], TPunct ")" :: rest) _ _ _).
      * refine (ev_step1 _ _ _ _ (C (TPunct ")" :: rest) (FE _ _)) _). intros k E. cbn [rargs]. now rewrite E.
      * intros k E. cbn [rprim is_p String.eqb Ascii.eqb Bool.eqb]. now rewrite E.
    + intros k E. cbn [rparse]. now rewrite E.
  - (* tuple *)
    intros ts a b l _ [_ H] rest res F Ho. cbn [app]. rewrite <- app_assoc. cbn [app].
    refine (ev_step2 _ (fun k => rprim k (TPunct "(" :: ts ++ TPunct ")" :: rest)) (RTuple (a :: b :: l), rest) _ _ _ Ho _).
    + refine (ev_step1 _ _ _ _ (H rest) _). intros k E. cbn [rprim is_p String.eqb Ascii.eqb Bool.eqb]. now rewrite E.
    + intros k E. cbn [rparse]. now rewrite E.
  - (* if *)
    intros z1 z2 z3 t1 t2 t3 c a b _ Cc _ Ca _ Cb rest res F Ho. cbn [app].
    rewrite <- app_assoc. cbn [app]. rewrite <- app_assoc. cbn [app]. rewrite <- app_assoc. cbn [app].
    refine (ev_step2 _ (fun k => rprim k (TWord "if" :: t1 ++ TPunct "{" :: t2 ++ TPunct "}" :: TWord "else" :: TPunct "{" :: t3 ++ TPunct "}" :: rest)) (RIf c a b, rest) _ _ _ Ho _).
    2:{ intros k E. cbn [rparse]. now rewrite E. }
    destruct (Cc (TPunct "{" :: t2 ++ TPunct "}" :: TWord "else" :: TPunct "{" :: t3 ++ TPunct "}" :: rest)) as [k1 H1]; [apply rfollow_end; cbn; auto|].
    destruct (Ca (TPunct "}" :: TWord "else" :: TPunct "{" :: t3 ++ TPunct "}" :: rest)) as [k2 H2]; [apply rfollow_end; cbn; auto 6|].
    destruct (Cb (TPunct "}" :: rest)) as [k3 H3]; [apply rfollow_end; cbn; auto 6|].
    exists (S (max k1 (max k2 k3))). intros [|k] Lk; [lia|]. cbn [rprim]. cbn [is_in existsb rs_keywords String.eqb Ascii.eqb Bool.eqb orb].
    rewrite H1 by lia. cbn [is_p String.eqb Ascii.eqb Bool.eqb]. rewrite H2 by lia. cbn [is_p is_w String.eqb Ascii.eqb Bool.eqb andb].
    rewrite H3 by lia. reflexivity.
  - intros r. apply ev_now. reflexivity.
  - intros ts l _ H. now apply rargs_list.
  - intros z ts a H C. split; [apply (GB _ _ _ _ H)|]. intros r.
    refine (ev_step1 _ _ _ _ (C (TPunct ")" :: r) (FE _ _)) _). intros k E. cbn [rargs]. now rewrite E.
  - intros z t1 t2 a l H C _ [B IH]. split; [apply rbegins_app; apply (GB _ _ _ _ H)|]. intros r.
    rewrite <- app_assoc. cbn [app].
    destruct (C (TPunct "," :: t2 ++ TPunct ")" :: r)) as [k1 H1]; [apply rfollow_end; cbn; auto|].
    destruct (IH r) as [k2 H2]. exists (S (max k1 k2)). intros [|k] Lk; [lia|]. cbn [rargs].
    rewrite H1 by lia. cbn [is_p String.eqb Ascii.eqb Bool.eqb]. now rewrite H2 by lia.
Qed.

(** At most one reading. *)
Theorem rs_unambiguous z z' ts e e' : rgram 0 z ts e -> rgram 0 z' ts e' -> e = e'.
Proof.
  intros H H'. apply (proj1 rparse_complete) in H, H'.
  specialize (H [] Logic.I). specialize (H' [] Logic.I). pose proof (ev_fun _ _ _ H H') as E. now injection E.
Qed.

Lemma rs_path_sound : forall ts p rest, parse_rs_path ts = Some (p, rest) -> exists pre, ts = pre ++ rest /\ rs_path pre p.
Proof.
  fix IH 1. intros [|[s|s|s] r] p rest E; try discriminate. cbn [parse_rs_path] in E.
  destruct (is_in s rs_keywords) eqn:K; [discriminate|].
  assert (forall q, Some ([s], r) = Some (p, q) -> exists pre, TWord s :: r = pre ++ q /\ rs_path pre p) as Z.
  { intros q [= <- <-]. exists [TWord s]. split; [reflexivity|now constructor]. }
  destruct r as [|[w|w|c] r']; try now apply Z. destruct (String.eqb_spec c "::") as [->|N]; [|now apply Z].
  destruct (parse_rs_path r') as [[p' q]|] eqn:E1; [|discriminate]. injection E as <- <-.
  destruct (IH r' p' q E1) as (pre & -> & H). exists (TWord s :: TPunct "::" :: pre). split; [reflexivity|now constructor].
Qed.
Lemma is_w_eq s t : is_w s t = true -> t = TWord s.
Proof. destruct t; try discriminate. cbn. intros E. apply String.eqb_eq in E. now subst. Qed.

Definition called (ts : list token) : bool := match ts with t :: _ => is_p "(" t | [] => false end.
Lemma rcasts_sound k : forall a ts e rest p0 z0, rgram 3 z0 p0 a -> (z0 = EType -> opens ts = false) -> rcasts k a ts = Some (e, rest) ->
  exists pre z, ts = pre ++ rest /\ rgram 3 z (p0 ++ pre) e /\ (z = EType -> opens rest = false).
Proof.
  induction k as [|k IH]; intros a ts e rest p0 z0 G O E; [discriminate|]. cbn [rcasts] in E.
  assert (forall q, Some (a, ts) = Some (e, q) -> exists pre z, ts = pre ++ q /\ rgram 3 z (p0 ++ pre) e /\ (z = EType -> opens q = false)) as Z.
  { intros q [= <- <-]. exists [], z0. rewrite app_nil_r. now repeat split. }
  destruct ts as [|t r]; [now apply Z|]. destruct (is_w "as" t) eqn:W; [|now apply Z].
  apply is_w_eq in W as ->. destruct (parse_rs_path r) as [[p r']|] eqn:Ep; [|discriminate].
  destruct (opens r') eqn:Or; [discriminate|]. destruct (rs_path_sound _ _ _ Ep) as (t2 & -> & Hp).
  destruct (IH _ _ _ _ (p0 ++ TWord "as" :: t2) EType (rg_as z0 p0 t2 a p G Hp) (fun _ => Or) E) as (pre & z & -> & G2 & O2).
  exists (TWord "as" :: t2 ++ pre), z. split; [cbn; now rewrite app_assoc|]. rewrite <- app_assoc in G2. now split.
Qed.

(** What the parser returns is a reading. *)
Theorem rparse_sound : forall k,
  (forall n ts e rest, n <= 5 -> rparse k n ts = Some (e, rest) ->
     exists pre z, ts = pre ++ rest /\ rgram n z pre e /\ (z = EType -> opens rest = false)) /\
  (forall n a ts e rest p0 z0, 1 <= n <= 2 -> rgram n z0 p0 a -> (z0 = EType -> opens ts = false) -> rloop k n a ts = Some (e, rest) ->
     exists pre z, ts = pre ++ rest /\ rgram n z (p0 ++ pre) e /\ (z = EType -> opens rest = false)) /\
  (forall a ts e rest p0 z0, rgram 5 z0 p0 a -> (z0 = EField -> called ts = false) -> rpost k a ts = Some (e, rest) ->
     exists pre z, ts = pre ++ rest /\ rgram 5 z (p0 ++ pre) e) /\
  (forall ts l rest, rlist k ts = Some (l, rest) -> exists pre, ts = pre ++ TPunct ")" :: rest /\ rgram_args pre l) /\
  (forall ts l rest, rargs k ts = Some (l, rest) -> exists pre, ts = pre ++ rest /\ rgram_args1 pre l) /\
  (forall ts e rest, rprim k ts = Some (e, rest) -> exists pre, ts = pre ++ rest /\ rgram 5 ENone pre e).
Proof.
  destruct rgram_begins as (GB & _ & _).
  induction k as [|k (IHp & IHl & IHo & IHli & IHa & IHr)]; [repeat split; intros; discriminate|].
  repeat split.
  - intros n ts e rest L E.
    assert (1 <= n <= 2 -> exists pre z, ts = pre ++ rest /\ rgram n z pre e /\ (z = EType -> opens rest = false)) as Mid.
    { intros B. assert (match rparse k (S n) ts with Some (a, r) => rloop k n a r | None => None end = Some (e, rest)) as E'.
      { rewrite <- E. destruct n as [|[|[|n]]]; try lia; reflexivity. }
      clear E. destruct (rparse k (S n) ts) as [[a r]|] eqn:Ea; [|discriminate].
      destruct (IHp (S n) ts a r ltac:(lia) Ea) as (p1 & z1 & -> & G1 & O1).
      destruct (IHl n a r e rest p1 z1 B (rg_up n _ _ _ ltac:(lia) G1) O1 E') as (p2 & z2 & -> & G2 & O2).
      exists (p1 ++ p2), z2. split; [now rewrite app_assoc|now split]. }
    destruct n as [|[|[|[|[|[|n]]]]]]; try lia; try (apply Mid; lia); clear Mid.
    + cbn [rparse] in E. destruct (rparse k 1 ts) as [[c [|q r]]|] eqn:E1; [| |discriminate].
      * injection E as <- <-. destruct (IHp 1 _ _ _ ltac:(lia) E1) as (p & z & -> & G & O). exists p, z. split; auto. split; [apply rg_up; [lia|assumption]|assumption].
      * destruct (IHp 1 _ _ _ ltac:(lia) E1) as (p & z & -> & G & O).
        destruct (op_in rs_comparisons q) as [o|] eqn:Q.
        -- apply op_in_eq in Q as [-> I]. destruct (rparse k 1 r) as [[b r3]|] eqn:E3; [|discriminate]. injection E as <- <-.
           destruct (IHp 1 _ _ _ ltac:(lia) E3) as (p3 & z3 & -> & G3 & O3).
           exists (p ++ TPunct o :: p3), z3. split; [now rewrite <- app_assoc|]. split; [|assumption]. apply (rg_cmp o z); auto.
           intros -> ->. now specialize (O eq_refl).
        -- injection E as <- <-. exists p, z. split; auto. split; [apply rg_up; [lia|assumption]|assumption].
    + cbn [rparse] in E. destruct (rparse k 4 ts) as [[a r]|] eqn:E1; [|discriminate].
      destruct (IHp 4 _ _ _ ltac:(lia) E1) as (p & z & -> & G & O).
      destruct (rcasts_sound k a r e rest p z (rg_up 3 _ _ _ ltac:(lia) G) O E) as (p2 & z2 & -> & G2 & O2).
      exists (p ++ p2), z2. split; [now rewrite app_assoc|now split].
    + cbn [rparse] in E. destruct ts as [|t r]; [discriminate|]. destruct (op_in rs_unops t) as [o|] eqn:O.
      * apply op_in_eq in O as [-> I]. destruct (rparse k 4 r) as [[a r']|] eqn:E1; [|discriminate]. injection E as <- <-.
        destruct (IHp 4 _ _ _ ltac:(lia) E1) as (p & z & -> & G & _). exists (TPunct o :: p), ENone. split; auto. split; [|discriminate].
        apply rg_un; [assumption|]. inversion G; subst; try lia; try assumption; try (eapply rg_up5; eassumption).
        match goal with H : In _ (rs_binops 4) |- _ => destruct H end.
      * destruct (IHp 5 _ _ _ ltac:(lia) E) as (p & z & Ep & G & _). exists p, ENone. split; auto. split; [eapply rg_up5; eassumption|discriminate].
    + cbn [rparse] in E. destruct (rprim k ts) as [[a r]|] eqn:E1; [|discriminate].
      destruct (IHr _ _ _ E1) as (p & -> & G). destruct (IHo _ _ _ _ _ _ G ltac:(discriminate) E) as (p2 & z2 & -> & G2).
      exists (p ++ p2), z2. split; [now rewrite app_assoc|]. split; [assumption|]. intros ->.
      destruct (GB _ _ _ _ G2) as (_ & _ & N). exfalso. apply N; [lia|reflexivity].
  - intros n a ts e rest p0 z0 B G O E. cbn [rloop] in E.
    assert (forall q, Some (a, ts) = Some (e, q) -> exists pre z, ts = pre ++ q /\ rgram n z (p0 ++ pre) e /\ (z = EType -> opens q = false)) as Z.
    { intros q [= <- <-]. exists [], z0. rewrite app_nil_r. now repeat split. }
    destruct ts as [|t r]; [now apply Z|]. destruct (op_in (rs_binops n) t) as [o|] eqn:Eo; [|now apply Z].
    apply op_in_eq in Eo as [-> I]. destruct (rparse k (S n) r) as [[b r']|] eqn:E1; [|discriminate].
    destruct (IHp (S n) _ _ _ ltac:(lia) E1) as (p & z & -> & G1 & O1).
    destruct (IHl n (RBin o a b) r' e rest (p0 ++ TPunct o :: p) z B) as (p2 & z2 & -> & G2 & O2); [eapply rg_bin; eassumption|assumption|assumption|].
    exists (TPunct o :: p ++ p2), z2. split; [cbn; now rewrite app_assoc|]. rewrite <- app_assoc in G2. now split.
  - intros a ts e rest p0 z0 G O E. cbn [rpost] in E.
    assert (forall q, Some (a, ts) = Some (e, q) -> exists pre z, ts = pre ++ q /\ rgram 5 z (p0 ++ pre) e) as Z.
    { intros q [= <- <-]. exists [], z0. rewrite app_nil_r. now split. }
    destruct ts as [|t r]; [now apply Z|]. destruct (is_p "(" t) eqn:P1; [|destruct (is_p "[" t) eqn:P0].
    + apply is_p_eq in P1 as ->. destruct (rlist k r) as [[l r']|] eqn:E1; [|discriminate].
      destruct (IHli _ _ _ E1) as (p1 & -> & G1).
      destruct (IHo (RCall a l) r' e rest (p0 ++ TPunct "(" :: p1 ++ [TPunct ")"]) ENone) as (p2 & z2 & -> & G2).
      { apply (rg_call z0); auto. intros ->. now specialize (O eq_refl). } { discriminate. } { assumption. }
      exists (TPunct "(" :: p1 ++ TPunct ")" :: p2), z2. split; [cbn; rewrite <- app_assoc; reflexivity|].
      rewrite <- app_assoc in G2. cbn in G2. rewrite <- app_assoc in G2. exact G2.
    + apply is_p_eq in P0 as ->. destruct (rparse k 0 r) as [[i [|v r2]]|] eqn:E1; try discriminate.
      destruct (is_p "]" v) eqn:P3; [|discriminate]. apply is_p_eq in P3 as ->.
      destruct (IHp 0 _ _ _ ltac:(lia) E1) as (p1 & z1 & -> & G1 & _).
      destruct (IHo (RIndex a i) r2 e rest (p0 ++ TPunct "[" :: p1 ++ [TPunct "]"]) ENone) as (p2 & z2 & -> & G2).
      { eapply rg_index; eassumption. } { discriminate. } { assumption. }
      exists (TPunct "[" :: p1 ++ TPunct "]" :: p2), z2. split; [cbn; rewrite <- app_assoc; reflexivity|].
      rewrite <- app_assoc in G2. cbn in G2. rewrite <- app_assoc in G2. exact G2.
    + destruct (is_p "." t) eqn:P2; [|now apply Z]. apply is_p_eq in P2 as ->.
      destruct r as [|[f|f|f] r']; try discriminate. destruct (is_in f rs_keywords) eqn:K; [discriminate|].
      assert (called r' = false -> rpost k (RField a f) r' = Some (e, rest) ->
        exists pre z, TPunct "." :: TWord f :: r' = pre ++ rest /\ rgram 5 z (p0 ++ pre) e) as Fd.
      { intros C E'. destruct (IHo (RField a f) r' e rest (p0 ++ [TPunct "."; TWord f]) EField) as (p2 & z2 & -> & G2); auto.
        - eapply rg_field; eassumption.
        - exists (TPunct "." :: TWord f :: p2), z2. split; [reflexivity|]. rewrite <- app_assoc in G2. exact G2. }
      destruct r' as [|u r2]; [now apply Fd|]. destruct (is_p "(" u) eqn:P3; [|now apply Fd].
      apply is_p_eq in P3 as ->. clear Fd. destruct (rlist k r2) as [[l r3]|] eqn:E1; [|discriminate].
      destruct (IHli _ _ _ E1) as (p1 & -> & G1).
      destruct (IHo (RMethod a f l) r3 e rest (p0 ++ TPunct "." :: TWord f :: TPunct "(" :: p1 ++ [TPunct ")"]) ENone) as (p2 & z2 & -> & G2).
      { eapply rg_method; eassumption. } { discriminate. } { assumption. }
      exists (TPunct "." :: TWord f :: TPunct "(" :: p1 ++ TPunct ")" :: p2), z2. split; [cbn; rewrite <- app_assoc; reflexivity|].
      rewrite <- app_assoc in G2. cbn in G2. rewrite <- app_assoc in G2. exact G2.
  - intros ts l rest E. cbn [rlist] in E. destruct ts as [|u r]; [discriminate|]. destruct (is_p ")" u) eqn:P.
    + apply is_p_eq in P as ->. injection E as <- <-. exists []. split; [reflexivity|constructor].
    + destruct (rargs k (u :: r)) as [[l' [|v r2]]|] eqn:E1; try discriminate.
      destruct (is_p ")" v) eqn:P3; [|discriminate]. apply is_p_eq in P3 as ->. injection E as <- <-.
      destruct (IHa _ _ _ E1) as (p1 & Ep & G1). exists p1. split; [assumption|now constructor].
  - intros ts l rest E. cbn [rargs] in E.
    destruct (rparse k 0 ts) as [[a [|t r]]|] eqn:E1; [| |discriminate].
    + injection E as <- <-. destruct (IHp 0 _ _ _ ltac:(lia) E1) as (p & z & -> & G & _). exists p. split; auto. econstructor; eassumption.
    + destruct (IHp 0 _ _ _ ltac:(lia) E1) as (p & z & -> & G & _). destruct (is_p "," t) eqn:P1.
      * apply is_p_eq in P1 as ->. destruct (rargs k r) as [[l' r']|] eqn:E2; [|discriminate]. injection E as <- <-.
        destruct (IHa _ _ _ E2) as (p2 & -> & G2). exists (p ++ TPunct "," :: p2). split; [now rewrite <- app_assoc|]. econstructor; eassumption.
      * injection E as <- <-. exists p. split; auto. econstructor; eassumption.
  - intros ts e rest E. cbn [rprim] in E. destruct ts as [|[wd|s|o] r]; [discriminate|..].
    + destruct (is_in wd rs_keywords) eqn:K.
      * destruct (String.eqb_spec wd "true") as [Eq|N1]; [subst wd; injection E as <- <-; exists [TWord "true"]; split; [reflexivity|apply rg_true]|].
        destruct (String.eqb_spec wd "false") as [Eq|N2]; [subst wd; injection E as <- <-; exists [TWord "false"]; split; [reflexivity|apply rg_false]|].
        destruct (String.eqb_spec wd "if") as [Eq|N3]; [|discriminate]. subst wd.
        destruct (rparse k 0 r) as [[c [|u r1]]|] eqn:E1; try discriminate. destruct (is_p "{" u) eqn:P1; [|discriminate]. apply is_p_eq in P1 as ->.
        destruct (rparse k 0 r1) as [[a [|u2 [|u3 [|u4 r2]]]]|] eqn:E2; try discriminate.
        destruct (is_p "}" u2 && is_w "else" u3 && is_p "{" u4)%bool eqn:P2; [|discriminate].
        apply andb_true_iff in P2 as [P2 P4]. apply andb_true_iff in P2 as [P2 P3].
        apply is_p_eq in P2 as ->. apply is_w_eq in P3 as ->. apply is_p_eq in P4 as ->.
        destruct (rparse k 0 r2) as [[b [|u5 r3]]|] eqn:E3; try discriminate. destruct (is_p "}" u5) eqn:P5; [|discriminate]. apply is_p_eq in P5 as ->.
        injection E as <- <-.
        destruct (IHp 0 _ _ _ ltac:(lia) E1) as (p1 & z1 & -> & G1 & _).
        destruct (IHp 0 _ _ _ ltac:(lia) E2) as (p2 & z2 & -> & G2 & _).
        destruct (IHp 0 _ _ _ ltac:(lia) E3) as (p3 & z3 & -> & G3 & _).
        exists (TWord "if" :: p1 ++ TPunct "{" :: p2 ++ TPunct "}" :: TWord "else" :: TPunct "{" :: p3 ++ [TPunct "}"]). split.
        -- cbn. repeat (rewrite <- app_assoc; cbn). reflexivity.
        -- eapply rg_if; eassumption.
      * destruct (parse_rs_path (TWord wd :: r)) as [[p r1]|] eqn:E1; [|discriminate]. injection E as <- <-.
        destruct (rs_path_sound _ _ _ E1) as (pre & Ep & Hp). exists pre. split; [assumption|now apply rg_id].
    + injection E as <- <-. exists [TNum s]. split; [reflexivity|apply rg_num].
    + destruct (is_p "(" (TPunct o)) eqn:P1; [|discriminate]. apply is_p_eq in P1 as [= ->].
      destruct (rargs k r) as [[l rr]|] eqn:E1; [|discriminate]. destruct (IHa _ _ _ E1) as (p1 & -> & G1).
      destruct l as [|a [|b l]]; [discriminate| |]; (destruct rr as [|x r1]; [discriminate|]);
        (destruct (is_p ")" x) eqn:P2; [|discriminate]); apply is_p_eq in P2 as ->; injection E as <- <-;
        exists (TPunct "(" :: p1 ++ [TPunct ")"]); (split; [cbn; now rewrite <- app_assoc|]).
      * inversion G1 as [z ? ? G|? ? ? ? ? ? G]; subst; [eapply rg_paren; eassumption|].
        match goal with H : rgram_args1 _ [] |- _ => inversion H end.
      * now apply rg_tuple.
Qed.

Lemma rs_reads_by_parse k s e : rparse k 0 (rs_lex s) = Some (e, []) -> rs_reads s e.
Proof.
  intros E. destruct (proj1 (rparse_sound k) 0 _ _ _ ltac:(lia) E) as (p & z & Ep & G & _). rewrite app_nil_r in Ep.
  exists z. now rewrite Ep.
Qed.
