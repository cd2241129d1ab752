(** A parser for the grammar of CppSpec.v, and the proof that the grammar gives every text at most one reading. *)
From Coq Require Import String Ascii List Arith ZArith Bool Lia.
From Verif Require Import CppSpec.
Import ListNotations.
Open Scope string_scope.
Open Scope nat_scope.
Open Scope list_scope.

Fixpoint parse_path (ts : list token) : option (list string * list token) :=
  match ts with
  | TWord s :: r =>
      if is_in s keywords then None
      else match r with
           | TPunct c :: r' =>
               if String.eqb c "::" then match parse_path r' with Some (p, q) => Some (s :: p, q) | None => None end
               else Some ([s], r)
           | _ => Some ([s], r)
           end
  | _ => None
  end.

Definition is_p (s : string) (t : token) : bool := match t with TPunct o => String.eqb o s | _ => false end.
Definition op_in (l : list string) (t : token) : option string :=
  match t with TPunct o => if is_in o l then Some o else None | _ => None end.

Fixpoint parse (k n : nat) (ts : list token) : option (cexp * list token) :=
  match k with
  | O => None
  | S k =>
      match n with
      | 0 =>
          match parse k 1 ts with
          | Some (c, q :: r) =>
              if is_p "?" q then
                match parse k 0 r with
                | Some (a, d :: r2) =>
                    if is_p ":" d then
                      match parse k 0 r2 with Some (b, r3) => Some (CCond c a b, r3) | None => None end
                    else None
                | _ => None
                end
              else Some (c, q :: r)
          | x => x
          end
      | 7 =>
          match ts with
          | t :: r =>
              match op_in unops t with
              | Some o => match parse k 7 r with Some (a, r') => Some (CUn o a, r') | None => None end
              | None => parse k 8 ts
              end
          | [] => None
          end
      | 8 => match prim k ts with Some (a, r) => post k a r | None => None end
      | _ => match parse k (S n) ts with Some (a, r) => loop k n a r | None => None end
      end
  end
with loop (k n : nat) (a : cexp) (ts : list token) : option (cexp * list token) :=
  match k with
  | O => None
  | S k =>
      match ts with
      | t :: r =>
          match op_in (binops n) t with
          | Some o => match parse k (S n) r with Some (b, r') => loop k n (CBin o a b) r' | None => None end
          | None => Some (a, ts)
          end
      | [] => Some (a, ts)
      end
  end
with post (k : nat) (a : cexp) (ts : list token) : option (cexp * list token) :=
  match k with
  | O => None
  | S k =>
      match ts with
      | t :: r =>
          if is_p "(" t then
            match r with
            | u :: r' =>
                if is_p ")" u then post k (CCall a []) r'
                else match args k r with
                     | Some (l, v :: r2) => if is_p ")" v then post k (CCall a l) r2 else None
                     | _ => None
                     end
            | [] => None
            end
          else if is_p "." t then
            match r with
            | TWord f :: r' => if is_in f keywords then None else post k (CDot a f) r'
            | _ => None
            end
          else Some (a, ts)
      | [] => Some (a, ts)
      end
  end
with args (k : nat) (ts : list token) : option (list cexp * list token) :=
  match k with
  | O => None
  | S k =>
      match parse k 0 ts with
      | Some (a, t :: r) =>
          if is_p "," t then match args k r with Some (l, r') => Some (a :: l, r') | None => None end
          else Some ([a], t :: r)
      | Some (a, []) => Some ([a], [])
      | None => None
      end
  end
with prim (k : nat) (ts : list token) : option (cexp * list token) :=
  match k with
  | O => None
  | S k =>
      match ts with
      | TNum s :: r => Some (CNum s, r)
      | TWord w :: r =>
          if String.eqb w "true" then Some (CBool true, r)
          else if String.eqb w "false" then Some (CBool false, r)
          else if String.eqb w "static_cast" then
            match r with
            | t :: r1 =>
                if is_p "<" t then
                  match parse_path r1 with
                  | Some (p, u :: v :: r2) =>
                      if is_p ">" u && is_p "(" v then
                        match parse k 0 r2 with
                        | Some (a, x :: r3) => if is_p ")" x then Some (CCast p a, r3) else None
                        | _ => None
                        end
                      else None
                  | _ => None
                  end
                else None
            | [] => None
            end
          else match parse_path ts with Some (p, r1) => Some (CId p, r1) | None => None end
      | t :: r =>
          if is_p "(" t then
            match parse k 0 r with
            | Some (a, x :: r1) => if is_p ")" x then Some (a, r1) else None
            | _ => None
            end
          else None
      | [] => None
      end
  end.

(** The result with enough fuel. *)
Definition ev {A : Type} (f : nat -> option A) (r : A) : Prop := exists k0, forall k, k0 <= k -> f k = Some r.

Lemma ev_fun {A} (f : nat -> option A) r r' : ev f r -> ev f r' -> r = r'.
Proof.
  intros [k H] [k' H']. specialize (H (max k k')). specialize (H' (max k k')).
  rewrite H in H' by lia. specialize (H' ltac:(lia)). now injection H'.
Qed.
Lemma ev_step {A} (f h : nat -> option A) r : ev h r -> (forall k, f (S k) = h k) -> ev f r.
Proof.
  intros [k0 H] E. exists (S k0). intros [|k] L; [lia|]. rewrite E. apply H. lia.
Qed.
Lemma ev_now {A} (f : nat -> option A) r : (forall k, f (S k) = Some r) -> ev f r.
Proof. intros E. exists 1. intros [|k] L; [lia|]. apply E. Qed.
Lemma ev_step2 {A B} (f : nat -> option A) (h : nat -> option B) x (h2 : nat -> option A) r :
  ev h x -> ev h2 r -> (forall k, h k = Some x -> f (S k) = h2 k) -> ev f r.
Proof.
  intros [k0 H] [k1 H1] E. exists (S (max k0 k1)). intros [|k] L; [lia|]. rewrite E; [apply H1; lia|apply H; lia].
Qed.
Lemma ev_step1 {A B} (f : nat -> option A) (h : nat -> option B) x r :
  ev h x -> (forall k, h k = Some x -> f (S k) = Some r) -> ev f r.
Proof.
  intros [k0 H] E. exists (S k0). intros [|k] L; [lia|]. apply E, H. lia.
Qed.

(** What cannot follow a complete expression of level [n]. *)
Definition follow (n : nat) (rest : list token) : Prop :=
  match rest with
  | TPunct o :: _ =>
      (forall m, n <= m -> is_in o (binops m) = false) /\ is_in o ["("; "."; "::"] = false /\ (n = 0 -> o <> "?")
  | _ => True
  end.
Definition follow8 (rest : list token) : Prop := match rest with TPunct o :: _ => o <> "::" | _ => True end.

Lemma follow_mono n m r : n <= m -> follow n r -> follow m r.
Proof. destruct r as [|[|?|o] r]; cbn; auto. intros L (F1 & F2 & F3). repeat split; auto. - intros p Lp. apply F1. lia. - intros ->. apply F3. lia. Qed.
Lemma follow_8 n r : follow n r -> follow8 r.
Proof. destruct r as [|[|?|o] r]; cbn; auto. intros (_ & F & _) ->. discriminate. Qed.

Lemma is_in_In s l : is_in s l = true <-> In s l.
Proof.
  unfold is_in. rewrite existsb_exists. split.
  - intros (x & I & E). apply String.eqb_eq in E. now subst.
  - intros I. exists s. split; [assumption|apply String.eqb_refl].
Qed.

(** How expressions begin. *)
Definition begins (n : nat) (ts : list token) : Prop :=
  match ts with
  | TWord _ :: _ | TNum _ :: _ => True
  | TPunct o :: _ => o = "(" \/ (n <= 7 /\ In o unops)
  | [] => False
  end.
Lemma begins_app n a b : begins n a -> begins n (a ++ b).
Proof. destruct a as [|[]]; cbn; tauto. Qed.
Lemma begins_mono n m a : n <= m -> begins m a -> begins n a.
Proof. destruct a as [|[]]; cbn; try tauto. intros L [H|[H I]]; auto. right. split; [lia|assumption]. Qed.

Lemma path_begins ts p : path_tokens ts p -> exists s r, ts = TWord s :: r /\ is_in s keywords = false.
Proof. destruct 1; eauto. Qed.

Scheme gram_mut := Minimality for gram Sort Prop
  with args_mut := Minimality for gram_args Sort Prop
  with args1_mut := Minimality for gram_args1 Sort Prop.
Combined Scheme gram_ind3 from gram_mut, args_mut, args1_mut.

Lemma binops_low n o : In o (binops n) -> 1 <= n <= 6.
Proof. do 7 (destruct n as [|n]; [cbn; intros; try tauto; lia|]). cbn. tauto. Qed.

Lemma gram_begins : (forall n ts e, gram n ts e -> n <= 8 /\ begins n ts) /\ (forall ts l, gram_args ts l -> True) /\
  (forall ts l, gram_args1 ts l -> begins 0 ts).
Proof.
  apply (gram_ind3 (fun n ts e => n <= 8 /\ begins n ts) (fun _ _ => True) (fun ts _ => begins 0 ts)).
  - intros n ts e L _ [L2 B]. split; [lia|]. apply (begins_mono n (S n)); [lia|assumption].
  - intros t1 t2 t3 c a b _ [_ B] _ _ _ _. split; [lia|]. apply begins_app. apply (begins_mono 0 1); [lia|assumption].
  - intros n o t1 t2 a b I _ [L B] _ _. split; [assumption|]. now apply begins_app.
  - intros o ts a I _ _. split; [lia|]. cbn. right. split; [lia|assumption].
  - intros t1 t2 f l _ [L B] _ _. split; [lia|]. now apply begins_app.
  - intros ts a f _ _ [L B]. split; [lia|]. now apply begins_app.
  - intros. split; [lia|]. exact Logic.I.
  - intros ts p H. destruct (path_begins _ _ H) as (s & r & -> & _). split; [lia|exact Logic.I].
  - intros. split; [lia|exact Logic.I].
  - split; [lia|exact Logic.I].
  - split; [lia|exact Logic.I].
  - intros. split; [lia|]. now left.
  - exact Logic.I.
  - intros; exact Logic.I.
  - intros ts a _ [_ B]. assumption.
  - intros t1 t2 a l _ [_ B] _ _. now apply begins_app.
Qed.

Lemma path_parse ts p rest : path_tokens ts p -> follow8 rest -> parse_path (ts ++ rest) = Some (p, rest).
Proof.
  intros H F. induction H as [s K|s ts p K H IH].
  - cbn [app parse_path]. rewrite K. destruct rest as [|[|?|o] r]; auto. cbn in F. now destruct (String.eqb_spec o "::").
  - cbn [app parse_path]. rewrite K. cbn [String.eqb Ascii.eqb Bool.eqb]. now rewrite IH.
Qed.

Definition complete (n : nat) (ts : list token) (e : cexp) : Prop :=
  match n with
  | 0 => forall rest, follow 0 rest -> ev (fun k => parse k 0 (ts ++ rest)) (e, rest)
  | 7 => forall rest, follow 7 rest -> ev (fun k => parse k 7 (ts ++ rest)) (e, rest)
  | 8 => forall rest res, follow8 rest -> ev (fun k => post k e rest) res -> ev (fun k => parse k 8 (ts ++ rest)) res
  | _ => forall rest res, follow (S n) rest -> ev (fun k => loop k n e rest) res -> ev (fun k => parse k n (ts ++ rest)) res
  end.

Lemma op_in_none l o : is_in o l = false -> op_in l (TPunct o) = None.
Proof. cbn. now intros ->. Qed.

Lemma loop_stop n e rest : follow n rest -> ev (fun k => loop k n e rest) (e, rest).
Proof.
  intros F. apply ev_now. intros k. cbn [loop]. destruct rest as [|t r]; [reflexivity|].
  destruct t as [s|s|o]; cbn [op_in]; try reflexivity. destruct F as (F & _ & _). now rewrite (F n (le_n n)).
Qed.
Lemma post_stop n e rest : follow n rest -> ev (fun k => post k e rest) (e, rest).
Proof.
  intros F. apply ev_now. intros k. cbn [post]. destruct rest as [|t r]; [reflexivity|].
  destruct t as [s|s|o]; cbn [is_p]; try reflexivity. destruct F as (_ & F & _).
  cbn in F. destruct (String.eqb o "("); [discriminate|]. destruct (String.eqb o "."); [discriminate|]. reflexivity.
Qed.

Lemma complete_mid n ts e : 1 <= n <= 6 -> complete n ts e ->
  forall rest, follow n rest -> ev (fun k => parse k n (ts ++ rest)) (e, rest).
Proof.
  intros L C rest F.
  assert (ev (fun k => loop k n e rest) (e, rest)) as H by now apply loop_stop.
  pose proof (follow_mono n (S n) rest ltac:(lia) F) as F2.
  do 7 (destruct n as [|n]; [try lia; exact (C rest _ F2 H)|]). lia.
Qed.
Lemma complete_all n ts e : n <= 8 -> complete n ts e ->
  forall rest, follow n rest -> ev (fun k => parse k n (ts ++ rest)) (e, rest).
Proof.
  intros L C rest F. destruct n as [|n]; [now apply C|].
  destruct (Nat.eq_dec n 6) as [->|N6]; [now apply C|].
  destruct (Nat.eq_dec n 7) as [->|N7].
  - apply C; [exact (follow_8 _ _ F)|exact (post_stop _ _ _ F)].
  - apply complete_mid; auto. lia.
Qed.
Lemma follow_op n o r : In o (binops n) -> follow (S n) (TPunct o :: r).
Proof.
  intros I. pose proof (binops_low _ _ I) as B. cbn [follow].
  assert (n = 1 \/ n = 2 \/ n = 3 \/ n = 4 \/ n = 5 \/ n = 6) as Hn by lia. clear B.
  repeat destruct Hn as [Hn|Hn]; subst n; cbn in I; repeat destruct I as [I|I]; try contradiction; subst o;
    (split; [intros m L; do 7 (destruct m as [|m]; [(exfalso; lia) || reflexivity|]); reflexivity|split; [reflexivity|lia]]).
Qed.
Lemma follow_q r : follow 1 (TPunct "?" :: r).
Proof. cbn. repeat split; [|lia]. intros m L. do 8 (destruct m as [|m]; [try lia; reflexivity|]). reflexivity. Qed.
Lemma follow_end n o r : o = ":" \/ o = ")" \/ o = "," -> follow n (TPunct o :: r).
Proof.
  intros H. cbn. repeat split.
  - intros m _. do 8 (destruct m as [|m]; [destruct H as [->|[->| ->]]; reflexivity|]). destruct H as [->|[->| ->]]; reflexivity.
  - destruct H as [->|[->| ->]]; reflexivity.
  - intros _. destruct H as [->|[->| ->]]; discriminate.
Qed.

Theorem parse_complete :
  (forall n ts e, gram n ts e -> complete n ts e) /\
  (forall ts l, gram_args ts l -> ts = [] /\ l = [] \/
     begins 0 ts /\ forall r, ev (fun k => args k (ts ++ TPunct ")" :: r)) (l, TPunct ")" :: r)) /\
  (forall ts l, gram_args1 ts l -> begins 0 ts /\ forall r, ev (fun k => args k (ts ++ TPunct ")" :: r)) (l, TPunct ")" :: r)).
Proof.
  destruct gram_begins as (GB & _ & GB1).
  apply (gram_ind3 complete
    (fun ts l => ts = [] /\ l = [] \/ begins 0 ts /\ forall r, ev (fun k => args k (ts ++ TPunct ")" :: r)) (l, TPunct ")" :: r))
    (fun ts l => begins 0 ts /\ forall r, ev (fun k => args k (ts ++ TPunct ")" :: r)) (l, TPunct ")" :: r))).
  - (* up *)
    intros n ts e L H C. destruct n as [|n].
    + intros rest F. refine (ev_step1 _ _ _ _ (complete_mid 1 ts e ltac:(lia) C rest (follow_mono 0 1 _ ltac:(lia) F)) _).
      intros k E. cbn [parse]. rewrite E. destruct rest as [|t r]; [reflexivity|].
      destruct t as [s|s|o]; cbn [is_p]; try reflexivity. destruct F as (_ & _ & F).
      destruct (String.eqb_spec o "?"); [exfalso; now apply F|reflexivity].
    + destruct (Nat.eq_dec n 6) as [->|N6].
      * intros rest F. refine (ev_step _ (fun k => parse k 8 (ts ++ rest)) _ _ _).
        -- apply C; [exact (follow_8 _ _ F)|exact (post_stop _ _ _ F)].
        -- intros k. cbn [parse]. destruct (GB _ _ _ H) as [_ B]. destruct ts as [|t r]; [destruct B|]. cbn [app].
           destruct t as [s|s|o]; cbn [op_in]; try reflexivity. cbn in B.
           destruct B as [->|B]; [reflexivity|]. lia.
      * assert (forall rest res, follow (S (S n)) rest -> ev (fun k => loop k (S n) e rest) res ->
                  ev (fun k => parse k (S n) (ts ++ rest)) res) as G.
        { intros rest res F Ho. refine (ev_step2 _ _ (e, rest) _ _ (complete_all (S (S n)) ts e ltac:(lia) C rest F) Ho _).
          intros k E. do 6 (destruct n as [|n]; [try lia; cbn [parse]; now rewrite E|]). lia. }
        do 6 (destruct n as [|n]; [exact G|]). lia.
  - (* cond *)
    intros t1 t2 t3 c a b _ Cc _ Ca _ Cb rest F.
    rewrite <- app_assoc. cbn [app]. rewrite <- app_assoc. cbn [app].
    pose proof (complete_mid 1 t1 c ltac:(lia) Cc (TPunct "?" :: t2 ++ TPunct ":" :: t3 ++ rest) (follow_q _)) as [k1 H1].
    pose proof (Ca (TPunct ":" :: t3 ++ rest) (follow_end 0 ":" _ (or_introl eq_refl))) as [k2 H2].
    destruct (Cb rest F) as [k3 H3].
    exists (S (max k1 (max k2 k3))). intros [|k] Lk; [lia|]. cbn [parse].
    rewrite H1 by lia. cbn [is_p String.eqb Ascii.eqb Bool.eqb]. rewrite H2 by lia. cbn [is_p String.eqb Ascii.eqb Bool.eqb]. rewrite H3 by lia. reflexivity.
  - (* bin *)
    intros n o t1 t2 a b I _ Ca _ Cb.
    pose proof (binops_low _ _ I) as L.
    assert (forall rest res, follow (S n) rest -> ev (fun k => loop k n (CBin o a b) rest) res ->
              ev (fun k => parse k n ((t1 ++ TPunct o :: t2) ++ rest)) res) as G.
    { intros rest res F Ho. rewrite <- app_assoc. cbn [app].
      assert (ev (fun k => loop k n a (TPunct o :: t2 ++ rest)) res) as HL.
      { refine (ev_step2 _ _ (b, rest) _ _ (complete_all (S n) t2 b ltac:(lia) Cb rest F) Ho _).
        intros k E. cbn [loop op_in]. replace (is_in o (binops n)) with true by (symmetry; now apply is_in_In). now rewrite E. }
      pose proof (follow_op n o (t2 ++ rest) I) as Fo.
      clear F Ho I. do 7 (destruct n as [|n]; [try lia; exact (Ca _ _ Fo HL)|]). lia. }
    do 7 (destruct n as [|n]; [try lia; exact G|]). lia.
  - (* unary *)
    intros o ts a I _ C rest F. refine (ev_step1 _ _ _ _ (C rest F) _).
    intros k E. cbn [app parse op_in]. replace (is_in o unops) with true by (symmetry; now apply is_in_In). now rewrite E.
  - (* call *)
    intros t1 t2 f l _ Cf _ Ha rest res F Hp.
    rewrite <- app_assoc. cbn [app]. rewrite <- app_assoc. cbn [app]. apply Cf; [discriminate|].
    destruct Ha as [[-> ->]|[B Ha]].
    + refine (ev_step _ _ _ Hp _). intros k. reflexivity.
    + refine (ev_step2 _ _ _ _ _ (Ha rest) Hp _). intros k E. cbn [post is_p]. cbn [String.eqb Ascii.eqb Bool.eqb].
      destruct t2 as [|t r]; [destruct B|]. cbn [app] in *.
      replace (is_p ")" t) with false.
      * now rewrite E.
      * destruct t as [s|s|o]; auto. cbn in B |- *. destruct B as [->|[_ B]]; [reflexivity|].
        cbn in B. repeat (destruct B as [<-|B]; [reflexivity|]). destruct B.
  - (* dot *)
    intros ts a f K _ C rest res F Hp. rewrite <- app_assoc. cbn [app]. apply C; [discriminate|].
    refine (ev_step _ _ _ Hp _). intros k. cbn [post is_p String.eqb Ascii.eqb Bool.eqb]. now rewrite K.
  - (* cast *)
    intros t1 t2 p a Hp _ C rest res F Ho.
    cbn [app]. rewrite <- app_assoc. cbn [app]. rewrite <- app_assoc. cbn [app].
    refine (ev_step2 _ (fun k => prim k (TWord "static_cast" :: TPunct "<" :: t1 ++ TPunct ">" :: TPunct "(" :: t2 ++ TPunct ")" :: rest)) (CCast p a, rest) _ _ _ Ho _).
    + refine (ev_step1 _ _ _ _ (C (TPunct ")" :: rest) (follow_end 0 ")" _ (or_intror (or_introl eq_refl)))) _).
      intros k E. cbn [prim]. cbn [String.eqb Ascii.eqb Bool.eqb is_p].
      rewrite (path_parse t1 p) by (assumption || discriminate). cbn [andb is_p String.eqb Ascii.eqb Bool.eqb]. now rewrite E.
    + intros k E. cbn [parse]. now rewrite E.
  - (* id *)
    intros ts p H rest res F Ho.
    refine (ev_step2 _ (fun k => prim k (ts ++ rest)) (CId p, rest) _ _ _ Ho _).
    + apply ev_now. intros k. destruct (path_begins _ _ H) as (s & r & E & K).
      pose proof (path_parse ts p rest H F) as Hq. rewrite E in Hq |- *. cbn [app prim] in Hq |- *.
      cbn in K. repeat rewrite (String.eqb_sym _ s) in K. rewrite (String.eqb_sym s "static_cast"), (String.eqb_sym s "true"), (String.eqb_sym s "false").
      rewrite (String.eqb_sym "static_cast" s), (String.eqb_sym "true" s), (String.eqb_sym "false" s).
      destruct (String.eqb s "static_cast"); [discriminate|]. destruct (String.eqb s "true"); [discriminate|].
      destruct (String.eqb s "false"); [discriminate|]. now rewrite Hq.
    + intros k E. cbn [parse]. now rewrite E.
  - intros s rest res F Ho. refine (ev_step2 _ (fun k => prim k (TNum s :: rest)) (CNum s, rest) _ _ _ Ho _).
    + now apply ev_now.
    + intros k E. cbn [app parse]. now rewrite E.
  - intros rest res F Ho. refine (ev_step2 _ (fun k => prim k (TWord "true" :: rest)) (CBool true, rest) _ _ _ Ho _).
    + now apply ev_now.
    + intros k E. cbn [app parse]. now rewrite E.
  - intros rest res F Ho. refine (ev_step2 _ (fun k => prim k (TWord "false" :: rest)) (CBool false, rest) _ _ _ Ho _).
    + now apply ev_now.
    + intros k E. cbn [app parse]. now rewrite E.
  - (* paren *)
    intros ts a _ C rest res F Ho. cbn [app]. rewrite <- app_assoc. cbn [app].
    refine (ev_step2 _ (fun k => prim k (TPunct "(" :: ts ++ TPunct ")" :: rest)) (a, rest) _ _ _ Ho _).
    + refine (ev_step1 _ _ _ _ (C (TPunct ")" :: rest) (follow_end 0 ")" _ (or_intror (or_introl eq_refl)))) _).
      intros k E. cbn [prim is_p String.eqb Ascii.eqb Bool.eqb]. now rewrite E.
    + intros k E. cbn [parse]. now rewrite E.
  - now left.
  - intros ts l _ H. now right.
  - intros ts a H C. split; [apply (GB _ _ _ H)|]. intros r.
    refine (ev_step1 _ _ _ _ (C (TPunct ")" :: r) (follow_end 0 ")" _ (or_intror (or_introl eq_refl)))) _).
    intros k E. cbn [args]. now rewrite E.
  - intros t1 t2 a l H C _ [B IH]. split; [apply begins_app; apply (GB _ _ _ H)|]. intros r.
    rewrite <- app_assoc. cbn [app].
    destruct (C (TPunct "," :: t2 ++ TPunct ")" :: r) (follow_end 0 "," _ (or_intror (or_intror eq_refl)))) as [k1 H1].
    destruct (IH r) as [k2 H2]. exists (S (max k1 k2)). intros [|k] Lk; [lia|]. cbn [args].
    rewrite H1 by lia. cbn [is_p String.eqb Ascii.eqb Bool.eqb]. now rewrite H2 by lia.
Qed.

(** At most one reading. *)
Theorem unambiguous ts e e' : gram 0 ts e -> gram 0 ts e' -> e = e'.
Proof.
  intros H H'. apply (proj1 parse_complete) in H, H'.
  specialize (H [] Logic.I). specialize (H' [] Logic.I). pose proof (ev_fun _ _ _ H H') as E. now injection E.
Qed.

(** What the parser returns is a reading. *)
Lemma is_p_eq s t : is_p s t = true -> t = TPunct s.
Proof. destruct t as [| |o]; cbn; try discriminate. intros E. apply String.eqb_eq in E. now subst. Qed.
Lemma op_in_eq l t o : op_in l t = Some o -> t = TPunct o /\ In o l.
Proof.
  destruct t as [| |o']; cbn; try discriminate. destruct (is_in o' l) eqn:E; [|discriminate].
  intros [= ->]. split; [reflexivity|]. now apply is_in_In.
Qed.
Lemma path_sound : forall n ts p rest, length ts <= n -> parse_path ts = Some (p, rest) ->
  exists pre, ts = pre ++ rest /\ path_tokens pre p.
Proof.
  induction n as [|n IH]; intros ts p rest L E.
  - destruct ts; [discriminate|cbn in L; lia].
  - destruct ts as [|[s|s|s] r]; try discriminate. cbn [parse_path] in E.
    destruct (is_in s keywords) eqn:K; [discriminate|].
    assert (forall q, Some ([s], r) = Some (p, q) -> exists pre, TWord s :: r = pre ++ q /\ path_tokens pre p) as Z.
    { intros q [= <- <-]. exists [TWord s]. split; [reflexivity|]. now constructor. }
    destruct r as [|[w|w|c] r']; try now apply Z.
    destruct (String.eqb_spec c "::") as [->|Nc]; [|now apply Z].
    destruct (parse_path r') as [[p' q]|] eqn:E'; [|discriminate]. injection E as <- <-.
    destruct (IH r' p' q) as (pre & -> & H); [cbn in L; lia|assumption|].
    exists (TWord s :: TPunct "::" :: pre). split; [reflexivity|]. now constructor.
Qed.

Theorem parse_sound : forall k,
  (forall n ts e rest, n <= 8 -> parse k n ts = Some (e, rest) -> exists pre, ts = pre ++ rest /\ gram n pre e) /\
  (forall n a ts e rest p0, 1 <= n <= 6 -> gram n p0 a -> loop k n a ts = Some (e, rest) ->
     exists pre, ts = pre ++ rest /\ gram n (p0 ++ pre) e) /\
  (forall a ts e rest p0, gram 8 p0 a -> post k a ts = Some (e, rest) ->
     exists pre, ts = pre ++ rest /\ gram 8 (p0 ++ pre) e) /\
  (forall ts l rest, args k ts = Some (l, rest) -> exists pre, ts = pre ++ rest /\ gram_args1 pre l) /\
  (forall ts e rest, prim k ts = Some (e, rest) -> exists pre, ts = pre ++ rest /\ gram 8 pre e).
Proof.
  induction k as [|k (IHp & IHl & IHo & IHa & IHr)]; [repeat split; intros; discriminate|].
  repeat split.
  - intros n ts e rest L E.
    assert (1 <= n <= 6 -> exists pre, ts = pre ++ rest /\ gram n pre e) as Mid.
    { intros B. assert (match parse k (S n) ts with Some (a, r) => loop k n a r | None => None end = Some (e, rest)) as E'.
      { rewrite <- E. do 7 (destruct n as [|n]; [try lia; reflexivity|]). lia. }
      clear E. destruct (parse k (S n) ts) as [[a r]|] eqn:Ea; [|discriminate].
      destruct (IHp (S n) ts a r ltac:(lia) Ea) as (p1 & -> & G1).
      destruct (IHl n a r e rest p1 B (g_up n _ _ ltac:(lia) G1) E') as (p2 & -> & G2).
      exists (p1 ++ p2). split; [now rewrite app_assoc|assumption]. }
    destruct (Nat.eq_dec n 0) as [->|N0]; [|destruct (Nat.eq_dec n 7) as [->|N7]; [|destruct (Nat.eq_dec n 8) as [->|N8]]].
    + cbn [parse] in E. destruct (parse k 1 ts) as [[c [|q r]]|] eqn:E1; [| |discriminate].
      * injection E as <- <-. destruct (IHp 1 _ _ _ ltac:(lia) E1) as (p & -> & G). exists p. split; auto. apply g_up; [lia|assumption].
      * destruct (IHp 1 _ _ _ ltac:(lia) E1) as (p & -> & G).
        destruct (is_p "?" q) eqn:Q.
        -- apply is_p_eq in Q as ->. destruct (parse k 0 r) as [[a [|d r2]]|] eqn:E2; try discriminate.
           destruct (is_p ":" d) eqn:D; [|discriminate]. apply is_p_eq in D as ->.
           destruct (parse k 0 r2) as [[b r3]|] eqn:E3; [|discriminate]. injection E as <- <-.
           destruct (IHp 0 _ _ _ ltac:(lia) E2) as (p2 & -> & G2). destruct (IHp 0 _ _ _ ltac:(lia) E3) as (p3 & -> & G3).
           exists (p ++ TPunct "?" :: p2 ++ TPunct ":" :: p3). split.
           ++ rewrite <- app_assoc. cbn. rewrite <- app_assoc. reflexivity.
           ++ now apply g_cond.
        -- injection E as <- <-. exists p. split; auto. apply g_up; [lia|assumption].
    + cbn [parse] in E. destruct ts as [|t r]; [discriminate|]. destruct (op_in unops t) as [o|] eqn:O.
      * apply op_in_eq in O as [-> I]. destruct (parse k 7 r) as [[a r']|] eqn:E1; [|discriminate]. injection E as <- <-.
        destruct (IHp 7 _ _ _ ltac:(lia) E1) as (p & -> & G). exists (TPunct o :: p). split; auto. now apply g_un.
      * destruct (IHp 8 _ _ _ ltac:(lia) E) as (p & Ep & G). exists p. split; auto. apply g_up; [lia|assumption].
    + cbn [parse] in E. destruct (prim k ts) as [[a r]|] eqn:E1; [|discriminate].
      destruct (IHr _ _ _ E1) as (p & -> & G). destruct (IHo _ _ _ _ _ G E) as (p2 & -> & G2).
      exists (p ++ p2). split; [now rewrite app_assoc|assumption].
    + apply Mid. lia.
  - intros n a ts e rest p0 B G E. cbn [loop] in E.
    assert (forall q, Some (a, ts) = Some (e, q) -> exists pre, ts = pre ++ q /\ gram n (p0 ++ pre) e) as Z.
    { intros q [= <- <-]. exists []. split; [reflexivity|]. now rewrite app_nil_r. }
    destruct ts as [|t r]; [now apply Z|]. destruct (op_in (binops n) t) as [o|] eqn:O; [|now apply Z].
    apply op_in_eq in O as [-> I]. destruct (parse k (S n) r) as [[b r']|] eqn:E1; [|discriminate].
    destruct (IHp (S n) _ _ _ ltac:(lia) E1) as (p & -> & G1).
    destruct (IHl n (CBin o a b) r' e rest (p0 ++ TPunct o :: p) B) as (p2 & -> & G2); [now apply g_bin|assumption|].
    exists (TPunct o :: p ++ p2). split; [cbn; now rewrite app_assoc|]. rewrite <- app_assoc in G2. exact G2.
  - intros a ts e rest p0 G E. cbn [post] in E.
    assert (forall q, Some (a, ts) = Some (e, q) -> exists pre, ts = pre ++ q /\ gram 8 (p0 ++ pre) e) as Z.
    { intros q [= <- <-]. exists []. split; [reflexivity|]. now rewrite app_nil_r. }
    destruct ts as [|t r]; [now apply Z|]. destruct (is_p "(" t) eqn:P1.
    + apply is_p_eq in P1 as ->. destruct r as [|u r']; [discriminate|]. destruct (is_p ")" u) eqn:P2.
      * apply is_p_eq in P2 as ->. destruct (IHo (CCall a []) r' e rest (p0 ++ TPunct "(" :: [] ++ [TPunct ")"])) as (p2 & -> & G2).
        { apply g_call; [assumption|constructor]. } { assumption. }
        exists (TPunct "(" :: TPunct ")" :: p2). split; [reflexivity|]. rewrite <- app_assoc in G2. exact G2.
      * destruct (args k (u :: r')) as [[l [|v r2]]|] eqn:E1; try discriminate.
        destruct (is_p ")" v) eqn:P3; [|discriminate]. apply is_p_eq in P3 as ->.
        destruct (IHa _ _ _ E1) as (p1 & Ep & G1). rewrite Ep in *.
        destruct (IHo (CCall a l) r2 e rest (p0 ++ TPunct "(" :: p1 ++ [TPunct ")"])) as (p2 & -> & G2).
        { apply g_call; [assumption|now constructor]. } { assumption. }
        exists (TPunct "(" :: p1 ++ TPunct ")" :: p2). split; [cbn; rewrite <- app_assoc; reflexivity|].
        rewrite <- app_assoc in G2. cbn in G2. rewrite <- app_assoc in G2. exact G2.
    + destruct (is_p "." t) eqn:P2; [|now apply Z]. apply is_p_eq in P2 as ->.
      destruct r as [|[f|f|f] r']; try discriminate. destruct (is_in f keywords) eqn:K; [discriminate|].
      destruct (IHo (CDot a f) r' e rest (p0 ++ [TPunct "."; TWord f])) as (p2 & -> & G2); [now apply g_dot|assumption|].
      exists (TPunct "." :: TWord f :: p2). split; [reflexivity|]. rewrite <- app_assoc in G2. exact G2.
  - intros ts l rest E. cbn [args] in E. destruct (parse k 0 ts) as [[a [|t r]]|] eqn:E1; [| |discriminate].
    + injection E as <- <-. destruct (IHp 0 _ _ _ ltac:(lia) E1) as (p & -> & G). exists p. split; auto. now constructor.
    + destruct (IHp 0 _ _ _ ltac:(lia) E1) as (p & -> & G). destruct (is_p "," t) eqn:P1.
      * apply is_p_eq in P1 as ->. destruct (args k r) as [[l' r']|] eqn:E2; [|discriminate]. injection E as <- <-.
        destruct (IHa _ _ _ E2) as (p2 & -> & G2). exists (p ++ TPunct "," :: p2). split; [now rewrite <- app_assoc|]. now constructor.
      * injection E as <- <-. exists p. split; auto. now constructor.
  - intros ts e rest E. cbn [prim] in E. destruct ts as [|[wd|s|o] r]; [discriminate|..].
    + destruct (String.eqb_spec wd "true") as [Eq|N1]; [subst wd; injection E as <- <-; exists [TWord "true"]; split; [reflexivity|apply g_true]|].
      destruct (String.eqb_spec wd "false") as [Eq|N2]; [subst wd; injection E as <- <-; exists [TWord "false"]; split; [reflexivity|apply g_false]|].
      destruct (String.eqb_spec wd "static_cast") as [Eq|N3].
      * subst wd. destruct r as [|t r1]; [discriminate|]. destruct (is_p "<" t) eqn:P1; [|discriminate]. apply is_p_eq in P1 as ->.
        destruct (parse_path r1) as [[p [|u [|v r2]]]|] eqn:E1; try discriminate.
        destruct (is_p ">" u) eqn:P2; [|discriminate]. destruct (is_p "(" v) eqn:P3; [|discriminate]. cbn [andb] in E.
        apply is_p_eq in P2 as ->. apply is_p_eq in P3 as ->.
        destruct (parse k 0 r2) as [[a [|x r3]]|] eqn:E2; try discriminate.
        destruct (is_p ")" x) eqn:P4; [|discriminate]. apply is_p_eq in P4 as ->. injection E as <- <-.
        destruct (path_sound _ _ _ _ (le_n _) E1) as (p1 & -> & G1). destruct (IHp 0 _ _ _ ltac:(lia) E2) as (p2 & -> & G2).
        exists (TWord "static_cast" :: TPunct "<" :: p1 ++ TPunct ">" :: TPunct "(" :: p2 ++ [TPunct ")"]). split.
        -- cbn. rewrite <- app_assoc. cbn. rewrite <- app_assoc. reflexivity.
        -- now apply g_cast.
      * destruct (parse_path (TWord wd :: r)) as [[p r1]|] eqn:E1; [|discriminate]. injection E as <- <-.
        destruct (path_sound _ _ _ _ (le_n _) E1) as (p1 & -> & G1). exists p1. split; auto. now apply g_id.
    + injection E as <- <-. exists [TNum s]. split; [reflexivity|apply g_num].
    + destruct (is_p "(" (TPunct o)) eqn:P1; [|discriminate]. apply is_p_eq in P1 as [= ->].
      destruct (parse k 0 r) as [[a [|x r1]]|] eqn:E1; try discriminate.
      destruct (is_p ")" x) eqn:P2; [|discriminate]. apply is_p_eq in P2 as ->. injection E as <- <-.
      destruct (IHp 0 _ _ _ ltac:(lia) E1) as (p1 & -> & G1). exists (TPunct "(" :: p1 ++ [TPunct ")"]). split.
      * cbn. now rewrite <- app_assoc.
      * now apply g_paren.
Qed.

Lemma reads_by_parse k s e : parse k 0 (lex s) = Some (e, []) -> reads_as s e.
Proof.
  intros E. destruct (proj1 (parse_sound k) 0 _ _ _ ltac:(lia) E) as (p & Ep & G). rewrite app_nil_r in Ep.
  unfold reads_as. now rewrite Ep.
Qed.
