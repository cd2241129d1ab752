(** A parser for the grammar of PySpec.v, and the proof that the grammar gives every text at most one reading. *)
From Coq Require Import String Ascii List Arith ZArith Bool Lia.
From Verif Require Import CppSpec CppParse PySpec.
Import ListNotations.
Open Scope string_scope.
Open Scope nat_scope.
Open Scope list_scope.

(** A name and an equals sign. *)
Definition keyed (ts : list token) : option (string * list token) :=
  match ts with TWord s :: t :: r => if is_p "=" t then Some (s, r) else None | _ => None end.

Fixpoint pparse (k n : nat) (ts : list token) : option (pexp * list token) :=
  match k with
  | O => None
  | S k =>
      match n with
      | 0 =>
          match pparse k 1 ts with
          | Some (a, q :: r) =>
              match op_in py_comparisons q with
              | Some o => match pparse k 1 r with Some (b, r') => Some (PBin o a b, r') | None => None end
              | None => Some (a, q :: r)
              end
          | x => x
          end
      | 3 =>
          match ts with
          | t :: r =>
              match op_in py_signs t with
              | Some o => match pparse k 3 r with Some (a, r') => Some (PUn o a, r') | None => None end
              | None => pparse k 4 ts
              end
          | [] => None
          end
      | 4 =>
          match pparse k 5 ts with
          | Some (a, q :: r) =>
              if is_p "**" q then match pparse k 3 r with Some (b, r') => Some (PBin "**" a b, r') | None => None end
              else Some (a, q :: r)
          | x => x
          end
      | 5 => match pprim k ts with Some (a, r) => ppost k a r | None => None end
      | _ => match pparse k (S n) ts with Some (a, r) => ploop k n a r | None => None end
      end
  end
with ploop (k n : nat) (a : pexp) (ts : list token) : option (pexp * list token) :=
  match k with
  | O => None
  | S k =>
      match ts with
      | t :: r =>
          match op_in (py_binops n) t with
          | Some o => match pparse k (S n) r with Some (b, r') => ploop k n (PBin o a b) r' | None => None end
          | None => Some (a, ts)
          end
      | [] => Some (a, ts)
      end
  end
with ppost (k : nat) (a : pexp) (ts : list token) : option (pexp * list token) :=
  match k with
  | O => None
  | S k =>
      match ts with
      | t :: r =>
          if is_p "(" t then
            match r with
            | u :: r' =>
                if is_p ")" u then ppost k (PCall a []) r'
                else match pargs k true r with
                     | Some (l, v :: r2) => if is_p ")" v then ppost k (PCall a l) r2 else None
                     | _ => None
                     end
            | [] => None
            end
          else if is_p "[" t then
            match pargs k false r with
            | Some (l, v :: r2) => if is_p "]" v then ppost k (PSub a l) r2 else None
            | _ => None
            end
          else if is_p "." t then
            match r with
            | TWord f :: r' => if is_in f py_keywords then None else ppost k (PDot a f) r'
            | _ => None
            end
          else Some (a, ts)
      | [] => Some (a, ts)
      end
  end
with pargs (k : nat) (key : bool) (ts : list token) : option (list pexp * list token) :=
  match k with
  | O => None
  | S k =>
      match (if key then keyed ts else None) with
      | Some (s, r) =>
          if is_in s py_keywords then None
          else match pparse k 0 r with Some (a, r') => Some ([PKey s a], r') | None => None end
      | None =>
          match pparse k 0 ts with
          | Some (a, t :: r) =>
              if is_p "," t then match pargs k key r with Some (l, r') => Some (a :: l, r') | None => None end
              else Some ([a], t :: r)
          | Some (a, []) => Some ([a], [])
          | None => None
          end
      end
  end
with pprim (k : nat) (ts : list token) : option (pexp * list token) :=
  match k with
  | O => None
  | S k =>
      match ts with
      | TNum s :: r => Some (PNum s, r)
      | TWord w :: r =>
          if is_in w py_keywords then
            if String.eqb w "True" then Some (PBool true, r)
            else if String.eqb w "False" then Some (PBool false, r) else None
          else Some (PId w, r)
      | t :: r =>
          if is_p "(" t then
            match pparse k 0 r with
            | Some (a, x :: r1) => if is_p ")" x then Some (a, r1) else None
            | _ => None
            end
          else None
      | [] => None
      end
  end.

(** What cannot follow a complete expression of level [n]. *)
Definition pfollow (n : nat) (rest : list token) : Prop :=
  match rest with
  | TPunct o :: _ =>
      (forall m, n <= m -> is_in o (py_binops m) = false) /\ is_in o ["("; "."; "["] = false /\
      (n = 0 -> is_in o py_comparisons = false) /\ (n <= 4 -> o <> "**")
  | _ => True
  end.

Lemma pfollow_mono n m r : n <= m -> pfollow n r -> pfollow m r.
Proof.
  destruct r as [|[|?|o] r]; cbn; auto. intros L (F1 & F2 & F3 & F4). repeat split; auto.
  - intros p Lp. apply F1. lia.
  - intros ->. apply F3. lia.
  - intros L2. apply F4. lia.
Qed.

(** How expressions begin. *)
Definition pbegins (n : nat) (ts : list token) : Prop :=
  match ts with
  | TWord _ :: _ | TNum _ :: _ => True
  | TPunct o :: _ => o = "(" \/ (n <= 3 /\ In o py_signs)
  | [] => False
  end.
Lemma pbegins_app n a b : pbegins n a -> pbegins n (a ++ b).
Proof. destruct a as [|[]]; cbn; tauto. Qed.
Lemma pbegins_mono n m a : n <= m -> pbegins m a -> pbegins n a.
Proof. destruct a as [|[]]; cbn; try tauto. intros L [H|[H I]]; auto. right. split; [lia|assumption]. Qed.

Scheme pgram_mut := Minimality for pgram Sort Prop
  with pargs_mut := Minimality for pgram_args Sort Prop
  with pargs1_mut := Minimality for pgram_args1 Sort Prop.
Combined Scheme pgram_ind3 from pgram_mut, pargs_mut, pargs1_mut.

Lemma py_binops_low n o : In o (py_binops n) -> 1 <= n <= 2.
Proof. do 3 (destruct n as [|n]; [cbn; intros; try tauto; lia|]). cbn. tauto. Qed.

Lemma pgram_begins : (forall n ts e, pgram n ts e -> n <= 5 /\ pbegins n ts) /\ (forall ts l, pgram_args ts l -> True) /\
  (forall k ts l, pgram_args1 k ts l -> pbegins 0 ts).
Proof.
  apply (pgram_ind3 (fun n ts e => n <= 5 /\ pbegins n ts) (fun _ _ => True) (fun _ ts _ => pbegins 0 ts)).
  - intros n ts e L _ [L2 B]. split; [lia|]. apply (pbegins_mono n (S n)); [lia|assumption].
  - intros o t1 t2 a b _ _ [_ B] _ _. split; [lia|]. apply pbegins_app. apply (pbegins_mono 0 1); [lia|assumption].
  - intros n o t1 t2 a b I _ [L B] _ _. split; [assumption|]. now apply pbegins_app.
  - intros o ts a I _ _. split; [lia|]. cbn. right. split; [lia|assumption].
  - intros t1 t2 a b _ [_ B] _ _. split; [lia|]. apply pbegins_app. apply (pbegins_mono 4 5); [lia|assumption].
  - intros t1 t2 f l _ [L B] _ _. split; [lia|]. now apply pbegins_app.
  - intros t1 t2 f l _ [L B] _ _. split; [lia|]. now apply pbegins_app.
  - intros ts a f _ _ [L B]. split; [lia|]. now apply pbegins_app.
  - intros. split; [lia|]. exact Logic.I.
  - intros. split; [lia|exact Logic.I].
  - split; [lia|exact Logic.I].
  - split; [lia|exact Logic.I].
  - intros. split; [lia|]. now left.
  - exact Logic.I.
  - intros; exact Logic.I.
  - intros k ts a _ [_ B]. assumption.
  - intros k t1 t2 a l _ [_ B] _ _. now apply pbegins_app.
  - intros. exact Logic.I.
Qed.

(** Expressions do not begin like keyword arguments. *)
Lemma keyed_app a o b : keyed a = None -> a <> [] -> o <> "=" -> keyed (a ++ TPunct o :: b) = None.
Proof.
  intros K N O. destruct a as [|[s|s|s] [|t a]]; cbn [keyed app] in *; auto; try congruence.
  - cbn. destruct (String.eqb_spec o "="); congruence.
  - destruct (is_p "=" t); [discriminate|reflexivity].
Qed.
Lemma pbegins_some n ts : pbegins n ts -> ts <> [].
Proof. destruct ts; [intros []|discriminate]. Qed.
Lemma pgram_unkeyed n ts e : pgram n ts e -> keyed ts = None.
Proof.
  assert (forall n ts e, pgram n ts e -> ts <> []) as X.
  { intros m u x G. apply (pbegins_some m). now apply (proj1 pgram_begins) in G as [_ G]. }
  revert n ts e.
  apply (pgram_mut (fun n ts e => keyed ts = None) (fun _ _ => True) (fun _ _ _ => True)); auto.
  - intros o t1 t2 a b I G Ka _ _. apply keyed_app; auto; [eapply X; eauto|]. intros ->. cbn in I. intuition discriminate.
  - intros n o t1 t2 a b I G Ka _ _. apply keyed_app; auto; [eapply X; eauto|]. intros ->.
    do 3 (destruct n as [|n]; [cbn in I; intuition discriminate|]). destruct I.
  - intros t1 t2 a b G Ka _ _. apply keyed_app; auto; [eapply X; eauto|discriminate].
  - intros t1 t2 f l G Ka _ _. apply keyed_app; auto; [eapply X; eauto|discriminate].
  - intros t1 t2 f l G Ka _ _. apply keyed_app; auto; [eapply X; eauto|discriminate].
  - intros ts a f _ G Ka. apply keyed_app; auto; [eapply X; eauto|discriminate].
Qed.

Definition pcomplete (n : nat) (ts : list token) (e : pexp) : Prop :=
  match n with
  | 1 | 2 => forall rest res, pfollow (S n) rest -> ev (fun k => ploop k n e rest) res -> ev (fun k => pparse k n (ts ++ rest)) res
  | 5 => forall rest res, ev (fun k => ppost k e rest) res -> ev (fun k => pparse k 5 (ts ++ rest)) res
  | _ => forall rest, pfollow n rest -> ev (fun k => pparse k n (ts ++ rest)) (e, rest)
  end.

Lemma ploop_stop n e rest : pfollow n rest -> ev (fun k => ploop k n e rest) (e, rest).
Proof.
  intros F. apply ev_now. intros k. cbn [ploop]. destruct rest as [|t r]; [reflexivity|].
  destruct t as [s|s|o]; cbn [op_in]; try reflexivity. destruct F as (F & _). now rewrite (F n (le_n n)).
Qed.
Lemma ppost_stop n e rest : pfollow n rest -> ev (fun k => ppost k e rest) (e, rest).
Proof.
  intros F. apply ev_now. intros k. cbn [ppost]. destruct rest as [|t r]; [reflexivity|].
  destruct t as [s|s|o]; cbn [is_p]; try reflexivity. destruct F as (_ & F & _).
  cbn in F. destruct (String.eqb o "("); [discriminate|]. destruct (String.eqb o "."); [discriminate|].
  destruct (String.eqb o "["); [discriminate|]. reflexivity.
Qed.
Lemma pcomplete_all n ts e : n <= 5 -> pcomplete n ts e ->
  forall rest, pfollow n rest -> ev (fun k => pparse k n (ts ++ rest)) (e, rest).
Proof.
  intros L C rest F. destruct n as [|[|[|[|[|[|n]]]]]]; try (now apply C); try lia.
  - apply C; [|now apply ploop_stop]. eapply pfollow_mono; [|exact F]. lia.
  - apply C; [|now apply ploop_stop]. eapply pfollow_mono; [|exact F]. lia.
  - apply C. eapply ppost_stop; eassumption.
Qed.
Lemma pfollow_op n o r : In o (py_binops n) -> pfollow (S n) (TPunct o :: r).
Proof.
  intros I. pose proof (py_binops_low _ _ I) as B. cbn [pfollow].
  assert (n = 1 \/ n = 2) as Hn by lia. clear B.
  repeat destruct Hn as [Hn|Hn]; subst n; cbn in I; repeat destruct I as [I|I]; try contradiction; subst o;
    (split; [intros m L; do 3 (destruct m as [|m]; [(exfalso; lia) || reflexivity|]); reflexivity|split; [reflexivity|split; [lia|discriminate]]]).
Qed.
Lemma pfollow_cmp o r : In o py_comparisons -> pfollow 1 (TPunct o :: r).
Proof.
  intros I. cbn [pfollow]. cbn in I. repeat destruct I as [I|I]; try contradiction; subst o;
    (split; [intros m L; do 3 (destruct m as [|m]; [(exfalso; lia) || reflexivity|]); reflexivity|split; [reflexivity|split; [lia|discriminate]]]).
Qed.
Lemma pfollow_end n o r : o = "]" \/ o = ")" \/ o = "," -> pfollow n (TPunct o :: r).
Proof.
  intros H. cbn. repeat split.
  - intros m _. do 3 (destruct m as [|m]; [destruct H as [->|[->| ->]]; reflexivity|]). destruct H as [->|[->| ->]]; reflexivity.
  - destruct H as [->|[->| ->]]; reflexivity.
  - intros _. destruct H as [->|[->| ->]]; reflexivity.
  - intros _. destruct H as [->|[->| ->]]; discriminate.
Qed.
Lemma pfollow_pow r : pfollow 5 (TPunct "**" :: r).
Proof.
  cbn. split; [|split; [reflexivity|split; lia]]. intros m L. do 3 (destruct m as [|m]; [lia|]). reflexivity.
Qed.

Definition args_read (key : bool) (ts : list token) (l : list pexp) : Prop :=
  pbegins 0 ts /\ forall o r, o = "]" \/ o = ")" -> ev (fun k => pargs k key (ts ++ TPunct o :: r)) (l, TPunct o :: r).

Lemma end_of o : o = "]" \/ o = ")" -> o = "]" \/ o = ")" \/ o = ",". Proof. tauto. Qed.

Theorem pparse_complete :
  (forall n ts e, pgram n ts e -> pcomplete n ts e) /\
  (forall ts l, pgram_args ts l -> ts = [] /\ l = [] \/ args_read true ts l) /\
  (forall k ts l, pgram_args1 k ts l -> args_read k ts l).
Proof.
  destruct pgram_begins as (GB & _ & GB1).
  apply (pgram_ind3 pcomplete (fun ts l => ts = [] /\ l = [] \/ args_read true ts l) args_read).
  - (* up *)
    intros n ts e L H C. destruct n as [|[|[|[|[|n]]]]]; try lia.
    + intros rest F. refine (ev_step1 _ _ _ _ (pcomplete_all 1 ts e ltac:(lia) C rest (pfollow_mono 0 1 _ ltac:(lia) F)) _).
      intros k E. cbn [pparse]. rewrite E. destruct rest as [|t r]; [reflexivity|].
      destruct t as [s|s|o]; cbn [op_in]; try reflexivity. destruct F as (_ & _ & F & _).
      now rewrite (F eq_refl).
    + intros rest res F Ho. refine (ev_step2 _ _ (e, rest) _ _ (pcomplete_all 2 ts e ltac:(lia) C rest F) Ho _).
      intros k E. cbn [pparse]. now rewrite E.
    + intros rest res F Ho. refine (ev_step2 _ _ (e, rest) _ _ (pcomplete_all 3 ts e ltac:(lia) C rest F) Ho _).
      intros k E. cbn [pparse]. now rewrite E.
    + intros rest F. refine (ev_step _ (fun k => pparse k 4 (ts ++ rest)) _ _ _).
      * apply (C rest). eapply pfollow_mono; [|exact F]. lia.
      * intros k. cbn [pparse]. destruct (GB _ _ _ H) as [_ B]. destruct ts as [|t r]; [destruct B|]. cbn [app].
        destruct t as [s|s|o]; cbn [op_in]; try reflexivity. cbn in B.
        destruct B as [->|B]; [reflexivity|]. lia.
    + intros rest F. refine (ev_step1 _ _ _ _ (pcomplete_all 5 ts e ltac:(lia) C rest (pfollow_mono 4 5 _ ltac:(lia) F)) _).
      intros k E. cbn [pparse]. rewrite E. destruct rest as [|t r]; [reflexivity|].
      destruct t as [s|s|o]; cbn [is_p]; try reflexivity. destruct F as (_ & _ & _ & F).
      destruct (String.eqb_spec o "**"); [exfalso; now apply F|reflexivity].
  - (* comparison *)
    intros o t1 t2 a b I _ Ca _ Cb rest F. rewrite <- app_assoc. cbn [app].
    pose proof (pcomplete_all 1 t1 a ltac:(lia) Ca (TPunct o :: t2 ++ rest) (pfollow_cmp _ _ I)) as [k1 H1].
    pose proof (pcomplete_all 1 t2 b ltac:(lia) Cb rest (pfollow_mono 0 1 _ ltac:(lia) F)) as [k2 H2].
    exists (S (max k1 k2)). intros [|k] Lk; [lia|]. cbn [pparse]. rewrite H1 by lia. cbn [op_in].
    replace (is_in o py_comparisons) with true by (symmetry; now apply is_in_In). now rewrite H2 by lia.
  - (* bin *)
    intros n o t1 t2 a b I _ Ca _ Cb.
    pose proof (py_binops_low _ _ I) as L.
    assert (forall rest res, pfollow (S n) rest -> ev (fun k => ploop k n (PBin o a b) rest) res ->
              ev (fun k => pparse k n ((t1 ++ TPunct o :: t2) ++ rest)) res) as G.
    { intros rest res F Ho. rewrite <- app_assoc. cbn [app].
      assert (ev (fun k => ploop k n a (TPunct o :: t2 ++ rest)) res) as HL.
      { refine (ev_step2 _ _ (b, rest) _ _ (pcomplete_all (S n) t2 b ltac:(lia) Cb rest F) Ho _).
        intros k E. cbn [ploop op_in]. replace (is_in o (py_binops n)) with true by (symmetry; now apply is_in_In). now rewrite E. }
      pose proof (pfollow_op n o (t2 ++ rest) I) as Fo.
      clear F Ho I. destruct n as [|[|[|n]]]; try lia; exact (Ca _ _ Fo HL). }
    destruct n as [|[|[|n]]]; try lia; exact G.
  - (* sign *)
    intros o ts a I _ C rest F. refine (ev_step1 _ _ _ _ (C rest F) _).
    intros k E. cbn [app pparse op_in]. replace (is_in o py_signs) with true by (symmetry; now apply is_in_In). now rewrite E.
  - (* power *)
    intros t1 t2 a b _ Ca _ Cb rest F. rewrite <- app_assoc. cbn [app].
    pose proof (pcomplete_all 5 t1 a ltac:(lia) Ca (TPunct "**" :: t2 ++ rest) (pfollow_pow _)) as [k1 H1].
    assert (pfollow 3 rest) as F3.
    { destruct rest as [|[|?|o] r]; cbn in F |- *; auto. destruct F as (F1 & F2 & F3 & F4). repeat split; auto; [|lia].
      intros m Lm. destruct m as [|[|[|m]]]; try lia; [reflexivity]. }
    destruct (Cb rest F3) as [k2 H2].
    exists (S (max k1 k2)). intros [|k] Lk; [lia|]. cbn [pparse]. rewrite H1 by lia.
    cbn [is_p String.eqb Ascii.eqb Bool.eqb]. now rewrite H2 by lia.
  - (* call *)
    intros t1 t2 f l _ Cf _ Ha rest res Hp.
    rewrite <- app_assoc. cbn [app]. rewrite <- app_assoc. cbn [app]. apply Cf.
    destruct Ha as [[-> ->]|[B Ha]].
    + refine (ev_step _ _ _ Hp _). intros k. reflexivity.
    + refine (ev_step2 _ _ _ _ _ (Ha ")" rest (or_intror eq_refl)) Hp _). intros k E. cbn [ppost is_p]. cbn [String.eqb Ascii.eqb Bool.eqb].
      destruct t2 as [|t r]; [destruct B|]. cbn [app] in *.
      replace (is_p ")" t) with false.
      * now rewrite E.
      * destruct t as [s|s|o]; auto. cbn in B |- *. destruct B as [->|[_ B]]; [reflexivity|].
        cbn in B. repeat (destruct B as [<-|B]; [reflexivity|]). destruct B.
  - (* subscript *)
    intros t1 t2 f l _ Cf _ [B Ha] rest res Hp.
    rewrite <- app_assoc. cbn [app]. rewrite <- app_assoc. cbn [app]. apply Cf.
    refine (ev_step2 _ _ _ _ _ (Ha "]" rest (or_introl eq_refl)) Hp _). intros k E.
    cbn [ppost is_p]. cbn [String.eqb Ascii.eqb Bool.eqb]. now rewrite E.
  - (* dot *)
    intros ts a f K _ C rest res Hp. rewrite <- app_assoc. cbn [app]. apply C.
    refine (ev_step _ _ _ Hp _). intros k. cbn [ppost is_p String.eqb Ascii.eqb Bool.eqb]. now rewrite K.
  - (* id *)
    intros s K rest res Ho.
    refine (ev_step2 _ (fun k => pprim k (TWord s :: rest)) (PId s, rest) _ _ _ Ho _).
    + apply ev_now. intros k. cbn [pprim]. now rewrite K.
    + intros k E. cbn [app pparse]. now rewrite E.
  - intros s rest res Ho. refine (ev_step2 _ (fun k => pprim k (TNum s :: rest)) (PNum s, rest) _ _ _ Ho _).
    + now apply ev_now.
    + intros k E. cbn [app pparse]. now rewrite E.
  - intros rest res Ho. refine (ev_step2 _ (fun k => pprim k (TWord "True" :: rest)) (PBool true, rest) _ _ _ Ho _).
    + now apply ev_now.
    + intros k E. cbn [app pparse]. now rewrite E.
  - intros rest res Ho. refine (ev_step2 _ (fun k => pprim k (TWord "False" :: rest)) (PBool false, rest) _ _ _ Ho _).
    + now apply ev_now.
    + intros k E. cbn [app pparse]. now rewrite E.
  - (* paren *)
    intros ts a _ C rest res Ho. cbn [app]. rewrite <- app_assoc. cbn [app].
    refine (ev_step2 _ (fun k => pprim k (TPunct "(" :: ts ++ TPunct ")" :: rest)) (a, rest) _ _ _ Ho _).
    + refine (ev_step1 _ _ _ _ (C (TPunct ")" :: rest) (pfollow_end 0 ")" _ (or_intror (or_introl eq_refl)))) _).
      intros k E. cbn [pprim is_p String.eqb Ascii.eqb Bool.eqb]. now rewrite E.
    + intros k E. cbn [pparse]. now rewrite E.
  - now left.
  - intros ts l _ H. now right.
  - intros key ts a H C. split; [apply (GB _ _ _ H)|]. intros o r Ho.
    assert ((if key then keyed (ts ++ TPunct o :: r) else None) = None) as NK.
    { destruct key; [|reflexivity]. apply keyed_app; [eapply pgram_unkeyed; eauto|apply (pbegins_some 0), (GB _ _ _ H)|].
      destruct Ho as [->| ->]; discriminate. }
    refine (ev_step1 _ _ _ _ (C (TPunct o :: r) (pfollow_end 0 o _ (end_of o Ho))) _).
    intros k E. cbn [pargs]. rewrite NK, E. now destruct Ho as [->| ->].
  - intros key t1 t2 a l H C _ [B IH]. split; [apply pbegins_app; apply (GB _ _ _ H)|]. intros o r Ho.
    rewrite <- app_assoc. cbn [app].
    assert ((if key then keyed (t1 ++ TPunct "," :: t2 ++ TPunct o :: r) else None) = None) as NK.
    { destruct key; [|reflexivity]. apply keyed_app; [eapply pgram_unkeyed; eauto|apply (pbegins_some 0), (GB _ _ _ H)|discriminate]. }
    destruct (C (TPunct "," :: t2 ++ TPunct o :: r) (pfollow_end 0 "," _ (or_intror (or_intror eq_refl)))) as [k1 H1].
    destruct (IH o r Ho) as [k2 H2]. exists (S (max k1 k2)). intros [|k] Lk; [lia|]. cbn [pargs].
    rewrite NK, H1 by lia. cbn [is_p String.eqb Ascii.eqb Bool.eqb]. now rewrite H2 by lia.
  - (* keyword *)
    intros s ts a K H C. split; [exact Logic.I|]. intros o r Ho. cbn [app].
    refine (ev_step1 _ _ _ _ (C (TPunct o :: r) (pfollow_end 0 o _ (end_of o Ho))) _).
    intros k E. cbn [pargs keyed is_p String.eqb Ascii.eqb Bool.eqb]. now rewrite K, E.
Qed.

(** At most one reading. *)
Theorem py_unambiguous ts e e' : pgram 0 ts e -> pgram 0 ts e' -> e = e'.
Proof.
  intros H H'. apply (proj1 pparse_complete) in H, H'.
  specialize (H [] Logic.I). specialize (H' [] Logic.I). pose proof (ev_fun _ _ _ H H') as E. now injection E.
Qed.

(** What the parser returns is a reading. *)
Theorem pparse_sound : forall k,
  (forall n ts e rest, n <= 5 -> pparse k n ts = Some (e, rest) -> exists pre, ts = pre ++ rest /\ pgram n pre e) /\
  (forall n a ts e rest p0, 1 <= n <= 2 -> pgram n p0 a -> ploop k n a ts = Some (e, rest) ->
     exists pre, ts = pre ++ rest /\ pgram n (p0 ++ pre) e) /\
  (forall a ts e rest p0, pgram 5 p0 a -> ppost k a ts = Some (e, rest) ->
     exists pre, ts = pre ++ rest /\ pgram 5 (p0 ++ pre) e) /\
  (forall key ts l rest, pargs k key ts = Some (l, rest) -> exists pre, ts = pre ++ rest /\ pgram_args1 key pre l) /\
  (forall ts e rest, pprim k ts = Some (e, rest) -> exists pre, ts = pre ++ rest /\ pgram 5 pre e).
Proof.
  induction k as [|k (IHp & IHl & IHo & IHa & IHr)]; [repeat split; intros; discriminate|].
  repeat split.
  - intros n ts e rest L E.
    assert (1 <= n <= 2 -> exists pre, ts = pre ++ rest /\ pgram n pre e) as Mid.
    { intros B. assert (match pparse k (S n) ts with Some (a, r) => ploop k n a r | None => None end = Some (e, rest)) as E'.
      { rewrite <- E. destruct n as [|[|[|n]]]; try lia; reflexivity. }
      clear E. destruct (pparse k (S n) ts) as [[a r]|] eqn:Ea; [|discriminate].
      destruct (IHp (S n) ts a r ltac:(lia) Ea) as (p1 & -> & G1).
      destruct (IHl n a r e rest p1 B (pg_up n _ _ ltac:(lia) G1) E') as (p2 & -> & G2).
      exists (p1 ++ p2). split; [now rewrite app_assoc|assumption]. }
    destruct n as [|[|[|[|[|[|n]]]]]]; try lia; try (apply Mid; lia); clear Mid.
    + cbn [pparse] in E. destruct (pparse k 1 ts) as [[c [|q r]]|] eqn:E1; [| |discriminate].
      * injection E as <- <-. destruct (IHp 1 _ _ _ ltac:(lia) E1) as (p & -> & G). exists p. split; auto. apply pg_up; [lia|assumption].
      * destruct (IHp 1 _ _ _ ltac:(lia) E1) as (p & -> & G).
        destruct (op_in py_comparisons q) as [o|] eqn:Q.
        -- apply op_in_eq in Q as [-> I]. destruct (pparse k 1 r) as [[b r3]|] eqn:E3; [|discriminate]. injection E as <- <-.
           destruct (IHp 1 _ _ _ ltac:(lia) E3) as (p3 & -> & G3).
           exists (p ++ TPunct o :: p3). split; [now rewrite <- app_assoc|]. now apply pg_cmp.
        -- injection E as <- <-. exists p. split; auto. apply pg_up; [lia|assumption].
    + cbn [pparse] in E. destruct ts as [|t r]; [discriminate|]. destruct (op_in py_signs t) as [o|] eqn:O.
      * apply op_in_eq in O as [-> I]. destruct (pparse k 3 r) as [[a r']|] eqn:E1; [|discriminate]. injection E as <- <-.
        destruct (IHp 3 _ _ _ ltac:(lia) E1) as (p & -> & G). exists (TPunct o :: p). split; auto. now apply pg_un.
      * destruct (IHp 4 _ _ _ ltac:(lia) E) as (p & Ep & G). exists p. split; auto. apply pg_up; [lia|assumption].
    + cbn [pparse] in E. destruct (pparse k 5 ts) as [[c [|q r]]|] eqn:E1; [| |discriminate].
      * injection E as <- <-. destruct (IHp 5 _ _ _ ltac:(lia) E1) as (p & -> & G). exists p. split; auto. apply pg_up; [lia|assumption].
      * destruct (IHp 5 _ _ _ ltac:(lia) E1) as (p & -> & G). destruct (is_p "**" q) eqn:Q.
        -- apply is_p_eq in Q as ->. destruct (pparse k 3 r) as [[b r3]|] eqn:E3; [|discriminate]. injection E as <- <-.
           destruct (IHp 3 _ _ _ ltac:(lia) E3) as (p3 & -> & G3).
           exists (p ++ TPunct "**" :: p3). split; [now rewrite <- app_assoc|]. now apply pg_pow.
        -- injection E as <- <-. exists p. split; auto. apply pg_up; [lia|assumption].
    + cbn [pparse] in E. destruct (pprim k ts) as [[a r]|] eqn:E1; [|discriminate].
      destruct (IHr _ _ _ E1) as (p & -> & G). destruct (IHo _ _ _ _ _ G E) as (p2 & -> & G2).
      exists (p ++ p2). split; [now rewrite app_assoc|assumption].
  - intros n a ts e rest p0 B G E. cbn [ploop] in E.
    assert (forall q, Some (a, ts) = Some (e, q) -> exists pre, ts = pre ++ q /\ pgram n (p0 ++ pre) e) as Z.
    { intros q [= <- <-]. exists []. split; [reflexivity|]. now rewrite app_nil_r. }
    destruct ts as [|t r]; [now apply Z|]. destruct (op_in (py_binops n) t) as [o|] eqn:O; [|now apply Z].
    apply op_in_eq in O as [-> I]. destruct (pparse k (S n) r) as [[b r']|] eqn:E1; [|discriminate].
    destruct (IHp (S n) _ _ _ ltac:(lia) E1) as (p & -> & G1).
    destruct (IHl n (PBin o a b) r' e rest (p0 ++ TPunct o :: p) B) as (p2 & -> & G2); [now apply pg_bin|assumption|].
    exists (TPunct o :: p ++ p2). split; [cbn; now rewrite app_assoc|]. rewrite <- app_assoc in G2. exact G2.
  - intros a ts e rest p0 G E. cbn [ppost] in E.
    assert (forall q, Some (a, ts) = Some (e, q) -> exists pre, ts = pre ++ q /\ pgram 5 (p0 ++ pre) e) as Z.
    { intros q [= <- <-]. exists []. split; [reflexivity|]. now rewrite app_nil_r. }
    destruct ts as [|t r]; [now apply Z|]. destruct (is_p "(" t) eqn:P1; [|destruct (is_p "[" t) eqn:P0].
    + apply is_p_eq in P1 as ->. destruct r as [|u r']; [discriminate|]. destruct (is_p ")" u) eqn:P2.
      * apply is_p_eq in P2 as ->. destruct (IHo (PCall a []) r' e rest (p0 ++ TPunct "(" :: [] ++ [TPunct ")"])) as (p2 & -> & G2).
        { apply pg_call; [assumption|constructor]. } { assumption. }
        exists (TPunct "(" :: TPunct ")" :: p2). split; [reflexivity|]. rewrite <- app_assoc in G2. exact G2.
      * destruct (pargs k true (u :: r')) as [[l [|v r2]]|] eqn:E1; try discriminate.
        destruct (is_p ")" v) eqn:P3; [|discriminate]. apply is_p_eq in P3 as ->.
        destruct (IHa _ _ _ _ E1) as (p1 & Ep & G1). rewrite Ep in *.
        destruct (IHo (PCall a l) r2 e rest (p0 ++ TPunct "(" :: p1 ++ [TPunct ")"])) as (p2 & -> & G2).
        { apply pg_call; [assumption|now constructor]. } { assumption. }
        exists (TPunct "(" :: p1 ++ TPunct ")" :: p2). split; [cbn; rewrite <- app_assoc; reflexivity|].
        rewrite <- app_assoc in G2. cbn in G2. rewrite <- app_assoc in G2. exact G2.
    + apply is_p_eq in P0 as ->. destruct (pargs k false r) as [[l [|v r2]]|] eqn:E1; try discriminate.
      destruct (is_p "]" v) eqn:P3; [|discriminate]. apply is_p_eq in P3 as ->.
      destruct (IHa _ _ _ _ E1) as (p1 & Ep & G1). rewrite Ep in *.
      destruct (IHo (PSub a l) r2 e rest (p0 ++ TPunct "[" :: p1 ++ [TPunct "]"])) as (p2 & -> & G2).
      { now apply pg_sub. } { assumption. }
      exists (TPunct "[" :: p1 ++ TPunct "]" :: p2). split; [cbn; rewrite <- app_assoc; reflexivity|].
      rewrite <- app_assoc in G2. cbn in G2. rewrite <- app_assoc in G2. exact G2.
    + destruct (is_p "." t) eqn:P2; [|now apply Z]. apply is_p_eq in P2 as ->.
      destruct r as [|[f|f|f] r']; try discriminate. destruct (is_in f py_keywords) eqn:K; [discriminate|].
      destruct (IHo (PDot a f) r' e rest (p0 ++ [TPunct "."; TWord f])) as (p2 & -> & G2); [now apply pg_dot|assumption|].
      exists (TPunct "." :: TWord f :: p2). split; [reflexivity|]. rewrite <- app_assoc in G2. exact G2.
  - intros key ts l rest E. cbn [pargs] in E. destruct (if key then keyed ts else None) as [[s r]|] eqn:NK.
    { destruct key; [|discriminate]. destruct ts as [|[w|w|w] [|t q]]; try discriminate. cbn [keyed] in NK.
      destruct (is_p "=" t) eqn:P; [|discriminate]. apply is_p_eq in P as ->. injection NK as <- <-.
      destruct (is_in w py_keywords) eqn:K; [discriminate|]. destruct (pparse k 0 q) as [[a r']|] eqn:E1; [|discriminate].
      injection E as <- <-. destruct (IHp 0 _ _ _ ltac:(lia) E1) as (p & -> & G).
      exists (TWord w :: TPunct "=" :: p). split; [reflexivity|]. now apply pa_key. }
    destruct (pparse k 0 ts) as [[a [|t r]]|] eqn:E1; [| |discriminate].
    + injection E as <- <-. destruct (IHp 0 _ _ _ ltac:(lia) E1) as (p & -> & G). exists p. split; auto. now constructor.
    + destruct (IHp 0 _ _ _ ltac:(lia) E1) as (p & -> & G). destruct (is_p "," t) eqn:P1.
      * apply is_p_eq in P1 as ->. destruct (pargs k key r) as [[l' r']|] eqn:E2; [|discriminate]. injection E as <- <-.
        destruct (IHa _ _ _ _ E2) as (p2 & -> & G2). exists (p ++ TPunct "," :: p2). split; [now rewrite <- app_assoc|]. now constructor.
      * injection E as <- <-. exists p. split; auto. now constructor.
  - intros ts e rest E. cbn [pprim] in E. destruct ts as [|[wd|s|o] r]; [discriminate|..].
    + destruct (is_in wd py_keywords) eqn:K.
      * destruct (String.eqb_spec wd "True") as [Eq|N1]; [subst wd; injection E as <- <-; exists [TWord "True"]; split; [reflexivity|apply pg_true]|].
        destruct (String.eqb_spec wd "False") as [Eq|N2]; [subst wd; injection E as <- <-; exists [TWord "False"]; split; [reflexivity|apply pg_false]|].
        discriminate.
      * injection E as <- <-. exists [TWord wd]. split; [reflexivity|]. now apply pg_id.
    + injection E as <- <-. exists [TNum s]. split; [reflexivity|apply pg_num].
    + destruct (is_p "(" (TPunct o)) eqn:P1; [|discriminate]. apply is_p_eq in P1 as [= ->].
      destruct (pparse k 0 r) as [[a [|x r1]]|] eqn:E1; try discriminate.
      destruct (is_p ")" x) eqn:P2; [|discriminate]. apply is_p_eq in P2 as ->. injection E as <- <-.
      destruct (IHp 0 _ _ _ ltac:(lia) E1) as (p1 & -> & G1). exists (TPunct "(" :: p1 ++ [TPunct ")"]). split.
      * cbn. now rewrite <- app_assoc.
      * now apply pg_paren.
Qed.

Lemma py_reads_by_parse k s e : pparse k 0 (py_lex s) = Some (e, []) -> py_reads s e.
Proof.
  intros E. destruct (proj1 (pparse_sound k) 0 _ _ _ ltac:(lia) E) as (p & Ep & G). rewrite app_nil_r in Ep.
  unfold py_reads. now rewrite Ep.
Qed.
