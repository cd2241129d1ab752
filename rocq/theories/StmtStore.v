(** Names of temporaries, variables in scope, and what the trees for values stand for where they are written. *)
From Coq Require Import String Ascii List Arith ZArith Bool Lia DecimalString Decimal DecimalNat DecimalFacts DecimalZ DecimalPos.
From Verif Require Import Outcome NumProofs IrModel IrSpec CfgModel CfgSpec ConvSpec AstModel AstSpec AstTree StmtModel StmtSpec.
Import ListNotations.
Open Scope nat_scope.
Open Scope list_scope.

(** ** Different values have different names *)
Fixpoint pad (k : nat) (d : uint) : uint := match k with O => d | S k => D0 (pad k d) end.
Lemma pad_string k d : (zeros k ++ NilEmpty.string_of_uint d)%string = NilEmpty.string_of_uint (pad k d).
Proof. induction k as [|k IH]; cbn; [reflexivity|]. now rewrite IH. Qed.
Lemma pad_value k d : N.of_uint (pad k d) = N.of_uint d.
Proof. induction k as [|k IH]; cbn; auto. Qed.
Lemma dec_uint n : exists d, dec_nat n = NilEmpty.string_of_uint d /\ N.of_uint d = N.of_nat n.
Proof.
  unfold dec_nat, dec. destruct n as [|n].
  - exists (D0 Nil). split; reflexivity.
  - cbn [Z.of_nat Z.to_int NilZero.string_of_int NilEmpty.string_of_int]. set (p := Pos.of_succ_nat n).
    exists (Pos.to_uint p). split.
    + destruct (Pos.to_uint p) eqn:E; try reflexivity. exfalso. now apply (DecimalPos.Unsigned.to_uint_nonnil p).
    + cbn [N.of_nat]. fold p. pose proof (DecimalPos.Unsigned.of_to p) as H. unfold N.of_uint. exact H.
Qed.
Lemma variable_name_inj w n m : variable_name w n = variable_name w m -> n = m.
Proof.
  unfold variable_name. intros E. injection E as E. destruct (dec_uint n) as (d & Ed & Vd), (dec_uint m) as (d' & Ed' & Vd').
  rewrite Ed, Ed' in E. rewrite !pad_string in E.
  apply (f_equal NilEmpty.uint_of_string) in E. rewrite !NilEmpty.usu in E. injection E as E.
  apply (f_equal N.of_uint) in E. rewrite !pad_value, Vd, Vd' in E. lia.
Qed.

(** ** Variables in scope *)
Lemma nodup_apart {B} (l l' : list B) s : NoDup (l ++ l') -> In s l -> In s l' -> False.
Proof.
  induction l as [|y t IH]; intros D I H; [contradiction|]. cbn in D. inversion D as [|? ? N1 N2]; subst. destruct I as [->|I]; auto.
  apply N1. rewrite in_app_iff. auto.
Qed.

Section Store.
  Context {A : algebra}.
  Notation store := (store A).
  Definition keys (st : store) : list string := map fst st.

  Lemma look_none (st : store) s : look A st s = None <-> ~ In s (keys st).
  Proof.
    induction st as [|[k x] t IH]; cbn; [tauto|]. destruct (String.eqb_spec k s) as [->|Nk].
    - split; [discriminate|tauto].
    - rewrite IH. split; [intros H [|]; auto|tauto].
  Qed.
  Lemma look_some (st : store) s : In s (keys st) -> exists x, look A st s = Some x.
  Proof. intros H. destruct (look A st s) as [x|] eqn:E; eauto. apply look_none in E. contradiction. Qed.
  Lemma put_keys (st : store) s d : keys (put A st s d) = keys st.
  Proof.
    induction st as [|[k x] t IH]; cbn; auto. destruct (String.eqb k s); cbn; auto. now f_equal.
  Qed.
  Lemma put_same (st : store) s d : In s (keys st) -> look A (put A st s d) s = Some (Some d).
  Proof.
    induction st as [|[k x] t IH]; cbn; [tauto|]. destruct (String.eqb_spec k s) as [->|Nk]; cbn.
    - now rewrite String.eqb_refl.
    - intros [|H]; [contradiction|]. destruct (String.eqb_spec k s); [contradiction|]. auto.
  Qed.
  Lemma put_other (st : store) s d s' : s <> s' -> look A (put A st s d) s' = look A st s'.
  Proof.
    intros N. induction st as [|[k x] t IH]; cbn; auto. destruct (String.eqb_spec k s) as [->|Nk]; cbn.
    - destruct (String.eqb_spec s s'); [contradiction|]. auto.
    - now rewrite IH.
  Qed.
  Lemma look_app (u v : store) s : look A (u ++ v) s = match look A u s with Some x => Some x | None => look A v s end.
  Proof. induction u as [|[k x] t IH]; cbn; auto. destruct (String.eqb k s); auto. Qed.

  (** [st'] has the variables of [st], and maybe more. *)
  Definition extends_store (st st' : store) : Prop :=
    exists new old, st' = new ++ old /\ keys old = keys st /\ NoDup (keys st').
  Lemma ext_refl st : NoDup (keys st) -> extends_store st st.
  Proof. intros H. exists [], st. auto. Qed.
  Lemma ext_trans a b c : extends_store a b -> extends_store b c -> extends_store a c.
  Proof.
    intros (n1 & o1 & -> & K1 & D1) (n2 & o2 & -> & K2 & D2).
    unfold keys in K2. rewrite map_app in K2. 
    assert (exists p q, o2 = p ++ q /\ map fst q = map fst o1) as (p & q & -> & Kq).
    { exists (firstn (length n1) o2), (skipn (length n1) o2). rewrite firstn_skipn. split; auto.
      rewrite <- skipn_map, K2. rewrite skipn_app, skipn_all2 by now rewrite map_length. rewrite map_length, Nat.sub_diag. reflexivity. }
    exists (n2 ++ p), q. rewrite <- app_assoc. split; auto. split; auto. unfold keys in *. congruence.
  Qed.
  Lemma ext_put st s d : NoDup (keys st) -> extends_store st (put A st s d).
  Proof. intros H. exists [], (put A st s d). rewrite put_keys. auto. Qed.
  Lemma ext_cons st s x : NoDup (keys st) -> ~ In s (keys st) -> extends_store st ((s, x) :: st).
  Proof. intros H N. exists [(s, x)], st. split; auto. split; auto. cbn. now constructor. Qed.
  Lemma ext_nodup st st' : extends_store st st' -> NoDup (keys st').
  Proof. now intros (n & o & _ & _ & H). Qed.
  Lemma ext_keys st st' s : extends_store st st' -> In s (keys st) -> In s (keys st').
  Proof. intros (n & o & -> & K & _) H. unfold keys. rewrite map_app, in_app_iff. right. unfold keys in *. now rewrite K. Qed.

  Lemma leave_keys st st' : extends_store st st' -> keys (leave A st st') = keys st.
  Proof.
    intros (n & o & -> & K & D). unfold leave. rewrite app_length.
    assert (length o = length st) as L by (apply (f_equal (@length string)) in K; unfold keys in K; now rewrite !map_length in K).
    replace (length n + length o - length st) with (length n) by lia. rewrite skipn_app, skipn_all, Nat.sub_diag. exact K.
  Qed.
  Lemma leave_look st st' s : extends_store st st' -> In s (keys st) -> look A (leave A st st') s = look A st' s.
  Proof.
    intros (n & o & -> & K & D) H. unfold leave. rewrite app_length.
    assert (length o = length st) as L by (apply (f_equal (@length string)) in K; unfold keys in K; now rewrite !map_length in K).
    replace (length n + length o - length st) with (length n) by lia. rewrite skipn_app, skipn_all, Nat.sub_diag. cbn [skipn app].
    change (look A ([] ++ o) s) with (look A o s). rewrite (look_app n o). destruct (look A n s) as [x|] eqn:E; auto. exfalso.
    assert (In s (keys n)) as I by (destruct (in_dec string_dec s (keys n)) as [|X]; auto; apply look_none in X; congruence).
    unfold keys in D. rewrite map_app in D. rewrite <- K in H. unfold keys in *. exact (nodup_apart _ _ s D I H).
  Qed.
End Store.

(** ** Trees *)
Section Trees.
  Variable A : algebra.
  Variable M : meaning (D A).
  Variable N : names.
  Variable outer : string -> bool.
  Variable c : cfg.
  Notation g := (c_vals c).
  Notation vn := (variable_name (n_width N)).
  Hypothesis EX : expresses A M N c.
  Hypothesis SP : separate N outer c.
  Variable r : name -> D A.

  (** The values that can be used: their operands can, too, and they were computed from them. *)
  Variable av : name -> Prop.
  Hypothesis av_block : forall v, av v -> exists t, In v (ops_of c t).
  Hypothesis av_closed : forall v a, av v -> op_of g v <> OPhi -> In a (args g v) -> av a.
  Hypothesis av_value : forall v, av v -> op_of g v <> OPhi -> r v = sem A (op_of g v) (map r (args g v)).
  Variable d : list name.
  (** Phi functions that are read have a variable. *)
  Hypothesis av_phi : forall v w, av v -> op_of g v = OPhi -> declared d v = false -> In v (args g w) -> op_of g w = OPhi.

  Variable st : store A.
  Hypothesis st_temp : forall v, av v -> declared d v = true -> look A st (vn v) = Some (Some (r v)).
  Hypothesis st_outer : forall s, outer s = true -> look A st s = None.

  Notation M' := (within A M st).

  Lemma outer_readable s : outer s = true -> readable A outer st s = true.
  Proof. intros H. unfold readable. now rewrite st_outer. Qed.
  Lemma outer_here s x : outer s = true -> here A st s x = x.
  Proof. intros H. unfold here. now rewrite st_outer. Qed.
  Lemma reads_access seq : forall a, reads (fold_left access_field seq a) = reads a.
  Proof. induction seq as [|x seq IH]; intros a; cbn; auto. rewrite IH. now destruct x. Qed.
  Lemma load_reads l e : visit_load N l = Ok e -> forallb (readable A outer st) (reads e) = true.
  Proof.
    destruct l as [z|n dd|b|k|b|v|a i|a]; cbn; intros H; try (injection H as <-; reflexivity).
    - injection H as <-. cbn. now rewrite outer_readable by apply (sp_var _ _ _ SP).
    - destruct (n_args N a) as [[s t]|] eqn:Ea; [|discriminate]. pose proof (outer_readable _ (sp_arg _ _ _ SP _ _ _ Ea)) as R.
      unfold read_argument in H. destruct t as [|rows cols|elems].
      + destruct (i =? 0); [|discriminate]. injection H as <-. cbn. now rewrite R.
      + destruct (i <? _); [|discriminate]. injection H as <-. cbn. now rewrite R.
      + destruct (nth_error elems i) as [seq|] eqn:En; [|discriminate]. injection H as <-. rewrite reads_access. cbn. now rewrite R.
    - destruct (n_args N a) as [[s t]|] eqn:Ea; [|discriminate]. injection H as <-. cbn. now rewrite (outer_readable _ (sp_arg _ _ _ SP _ _ _ Ea)).
  Qed.
  Lemma access_within seq : forall x, fold_left (access_value M') seq x = fold_left (access_value M) seq x.
  Proof. induction seq as [|y seq IH]; intros x; cbn; auto. Qed.
  Lemma load_within l : load_value M' N l = load_value M N l.
  Proof.
    destruct l as [z|n dd|b|k|b|v|a i|a]; cbn; auto.
    - now rewrite outer_here by apply (sp_var _ _ _ SP).
    - destruct (n_args N a) as [[s t]|] eqn:Ea; [|reflexivity]. pose proof (sp_arg _ _ _ SP _ _ _ Ea) as O.
      destruct t as [|rows cols|elems]; cbn; rewrite outer_here by auto; auto.
    - destruct (n_args N a) as [[s t]|] eqn:Ea; [|reflexivity]. pose proof (sp_arg _ _ _ SP _ _ _ Ea) as O.
      destruct t; now rewrite outer_here.
  Qed.
  Lemma operation_within o ty l : operation_value M' N o ty l = operation_value M N o ty l.
  Proof. destruct o; cbn; auto. destruct l; apply load_within. Qed.

  (** The operands of [n] can be used, and [n] is what is computed from them. *)
  Definition ready (n : name) : Prop := (exists t, In n (ops_of c t)) /\ (op_of g n <> OPhi -> forall a, In a (args g n) -> av a) /\
    (op_of g n <> OPhi -> r n = sem A (op_of g n) (map r (args g n))).
  Lemma av_ready n : av n -> ready n.
  Proof. intros L. split; [now apply av_block|]. split; [intros Np a; now apply av_closed|now apply av_value]. Qed.
  Lemma visit_here : forall k n e, ready n -> visit_value N g d k n = Ok e ->
    value_of M' e = r n /\ forallb (readable A outer st) (reads e) = true.
  Proof.
    induction k as [|k IH]; intros n e L H; [discriminate|].
    assert (Nc : control (op_of g n) = false) by (cbn [visit_value] in H; destruct (op_of g n); auto; discriminate).
    assert (Np : op_of g n <> OPhi) by (intros E; rewrite E in Nc; discriminate).
    assert (Arg : forall a p x, In a (args g n) -> visit_argument N g d (visit_value N g d k) p a = Ok x ->
              value_of M' x = r a /\ forallb (readable A outer st) (reads x) = true).
    { intros a p x Ia Ex. pose proof (proj1 (proj2 L) Np a Ia) as La. unfold visit_argument in Ex.
      destruct (declared d a) eqn:Da.
      - injection Ex as <-. cbn [value_of within m_var reads forallb]. unfold here, readable. rewrite (st_temp a La Da). auto.
      - assert (Na : op_of g a <> OPhi) by (intros Oa; apply Np; exact (av_phi a n La Oa Da Ia)).
        apply av_ready in La. destruct p as [q|]; [|now apply IH]. destruct (_ <=? q); [|now apply IH]. binv Ex. injection Ex as <-. cbn. now apply IH. }
    assert (Args : forall l p x, (forall a, In a l -> In a (args g n)) -> mapM (visit_argument N g d (visit_value N g d k) p) l = Ok x ->
              map (value_of M') x = map r l /\ forallb (readable A outer st) (flat_map reads x) = true).
    { intros l p x Hl G. apply mapM_Forall2 in G. induction G as [|a b l' r' H1 H2 IH2]; cbn; [auto|].
      destruct IH2 as [E1 E2]; [intros a' I'; apply Hl; now right|]. destruct (Arg a p b (Hl a (or_introl eq_refl)) H1) as [F1 F2].
      rewrite E1, F1, forallb_app, E2, F2. auto. }
    assert (Fin : forall x, operation_value M' N (op_of g n) (ty_of g n) (map r (args g n)) = Some x -> x = r n).
    { intros x Ex. rewrite operation_within in Ex. destruct (proj1 L) as (t & Kt).
      rewrite (EX t n (map r (args g n)) Kt Nc) in Ex by apply map_length. injection Ex as <-. symmetry. now apply (proj2 (proj2 L)). }
    cbn [visit_value] in H. 
    destruct (op_of g n) as [ |f|f|t|rl| | |t| |i| |l| | |s| |u s] eqn:En; try discriminate.
    - binv H. injection H as <-. destruct (Args (args g n) (Some addition) x (fun a G => G) E) as [V R]. split; [|exact R].
      apply Fin. rewrite <- V. destruct x as [|x0 xs]; [|reflexivity]. exfalso.
      destruct (proj1 L) as (t & Kt). specialize (EX t n (map r (args g n)) Kt). rewrite En in EX. specialize (EX eq_refl (map_length _ _)).
      rewrite <- V in EX. discriminate.
    - binv H. injection H as <-. destruct (Args (args g n) None x (fun a G => G) E) as [V R]. split; [|exact R].
      apply Fin. rewrite <- V. cbn. unfold float_scalar. destruct (map (value_of M') x); reflexivity.
    - binv H. injection H as <-. destruct (Args (args g n) None x (fun a G => G) E) as [V R]. split; [|exact R].
      apply Fin. rewrite <- V. cbn. destruct (map (value_of M') x); reflexivity.
    - destruct (args g n) as [|a [|? ?]]; try discriminate. binv H. injection H as <-. destruct (Arg a None x (or_introl eq_refl) E) as [V R].
      split; [|exact R]. apply Fin. cbn. now rewrite V.
    - destruct (args g n) as [|a [|b [|? ?]]]; try discriminate. binv H. binv H. injection H as <-.
      destruct (Arg a None x (or_introl eq_refl) E) as [V R]. destruct (Arg b None x0 (or_intror (or_introl eq_refl)) E0) as [V' R'].
      split; [apply Fin; cbn; now rewrite V, V'|]. cbn. now rewrite forallb_app, R, R'.
    - destruct (args g n) as [|k0 [|a [|b [|? ?]]]]; try discriminate. binv H. binv H. binv H. injection H as <-.
      destruct (Arg k0 _ x (or_introl eq_refl) E) as [V R]. destruct (Arg a _ x0 (or_intror (or_introl eq_refl)) E0) as [V' R'].
      destruct (Arg b _ x1 (or_intror (or_intror (or_introl eq_refl))) E1) as [V2 R2].
      split; [apply Fin; cbn; now rewrite V, V', V2|]. cbn. now rewrite !forallb_app, R, R', R2.
    - destruct (args g n) as [|a [|? ?]]; try discriminate. destruct (Arg a None e (or_introl eq_refl) H) as [V R].
      split; [|exact R]. apply Fin. cbn. now rewrite V.
    - destruct (args g n) as [|a [|b [|? ?]]]; try discriminate. binv H. binv H. injection H as <-.
      destruct (Arg a _ x (or_introl eq_refl) E) as [V R]. destruct (Arg b _ x0 (or_intror (or_introl eq_refl)) E0) as [V' R'].
      split; [apply Fin; cbn; now rewrite V, V'|]. cbn. now rewrite forallb_app, R, R'.
    - exfalso. destruct (proj1 L) as (t & Kt). specialize (EX t n (map r (args g n)) Kt). rewrite En in EX. specialize (EX eq_refl (map_length _ _)). discriminate.
    - assert (Hl : visit_load N l = Ok e) by now destruct (args g n). split; [|now apply (load_reads l)].
      apply Fin. cbn. rewrite <- (load_means N M' l e Hl). now destruct (map r (args g n)).
    - destruct (2 <=? length (args g n)) eqn:E2; [|discriminate]. binv H. injection H as <-.
      destruct (Args (args g n) (Some multiplication) x (fun a G => G) E) as [V R]. split; [|exact R].
      apply Fin. rewrite <- V. destruct x as [|x0 xs]; [|reflexivity]. exfalso.
      destruct (args g n); [discriminate E2|discriminate V].
    - destruct (args g n) as [|a [|? ?]]; try discriminate. binv H. injection H as <-. destruct (Arg a _ x (or_introl eq_refl) E) as [V R].
      split; [|exact R]. apply Fin. cbn. now rewrite V.
  Qed.
  Lemma ready_eval k n e : ready n -> visit_value N g d k n = Ok e -> eval A M outer st e = Some (r n).
  Proof. intros L H. destruct (visit_here k n e L H) as [V R]. unfold eval. now rewrite R, V. Qed.
  Lemma visit_eval k n e : av n -> visit_value N g d k n = Ok e -> eval A M outer st e = Some (r n).
  Proof. intros L. apply ready_eval. now apply av_ready. Qed.
  Lemma argument_eval k p n w e : av n -> op_of g w <> OPhi -> In n (args g w) -> visit_argument N g d (visit_value N g d k) p n = Ok e -> eval A M outer st e = Some (r n).
  Proof.
    intros L Nw Iw H. unfold visit_argument in H. destruct (declared d n) eqn:Dn.
    - injection H as <-. unfold eval. cbn [value_of within m_var reads forallb]. unfold readable, here. now rewrite (st_temp n L Dn).
    - destruct p as [q|]; [|now apply (visit_eval k)]. destruct (_ <=? q); [|now apply (visit_eval k)].
      binv H. injection H as <-. unfold eval. cbn. now apply (visit_eval k).
  Qed.
  Lemma temp_eval n : av n -> declared d n = true -> eval A M outer st (AVar (vn n)) = Some (r n).
  Proof. intros L Dn. unfold eval. cbn [value_of within m_var reads forallb]. unfold readable, here. now rewrite (st_temp n L Dn). Qed.
End Trees.
