(** Induction on expressions, identity, number sets. *)
From Coq Require Import String List ZArith Reals Bool Permutation Lra Lia.
From Verif Require Import Outcome CheckedIntModel CheckedIntProofs RationalModel RationalSpec RationalProofs
  IntFloatModel ExprModel ExprSpec ValProofs.
Import ListNotations.
Open Scope R_scope.

Section ExprInd.
  Variable P : expr -> Prop.
  Hypothesis HFlt : forall f, P (EFlt f).
  Hypothesis HInt : forall z, P (EInt z).
  Hypothesis HRat : forall q, P (ERat q).
  Hypothesis HSym : forall c, P (ESym c).
  Hypothesis HInf : P EInf.
  Hypothesis HImag : P EImag.
  Hypothesis HUndef : P EUndef.
  Hypothesis HVar : forall v, P (EVar v).
  Hypothesis HMul : forall l, Forall P l -> P (EMul l).
  Hypothesis HAdd : forall l, Forall P l -> P (EAdd l).
  Hypothesis HPow : forall b e, P b -> P e -> P (EPow b e).
  Hypothesis HFun : forall f l, Forall P l -> P (EFun f l).
  Hypothesis HSymFn : forall n l, Forall P l -> P (ESymFn n l).
  Hypothesis HUneval : forall a, P a -> P (EUneval a).
  Hypothesis HCond : forall c a b, P c -> P a -> P b -> P (ECond c a b).
  Hypothesis HIver : forall c, P c -> P (EIver c).
  Hypothesis HDeriv : forall f x n, P f -> P x -> P (EDeriv f x n).
  Hypothesis HSubst : forall i t r, P i -> P t -> P r -> P (ESubst i t r).
  Hypothesis HStop : forall a, P a -> P (EStop a).
  Hypothesis HBool : forall b, P (EBool b).
  Hypothesis HRel : forall o l r, P l -> P r -> P (ERel o l r).
  Fixpoint expr_ind' (e : expr) : P e :=
    let list_ind := fix go (l : list expr) : Forall P l :=
      match l with [] => Forall_nil P | a :: t => Forall_cons a (expr_ind' a) (go t) end in
    match e with
    | EFlt f => HFlt f
    | EInt z => HInt z
    | ERat q => HRat q
    | ESym c => HSym c
    | EInf => HInf
    | EImag => HImag
    | EUndef => HUndef
    | EVar v => HVar v
    | EMul l => HMul l (list_ind l)
    | EAdd l => HAdd l (list_ind l)
    | EPow b x => HPow b x (expr_ind' b) (expr_ind' x)
    | EFun f l => HFun f l (list_ind l)
    | ESymFn n l => HSymFn n l (list_ind l)
    | EUneval a => HUneval a (expr_ind' a)
    | ECond c a b => HCond c a b (expr_ind' c) (expr_ind' a) (expr_ind' b)
    | EIver c => HIver c (expr_ind' c)
    | EDeriv f x n => HDeriv f x n (expr_ind' f) (expr_ind' x)
    | ESubst i t r => HSubst i t r (expr_ind' i) (expr_ind' t) (expr_ind' r)
    | EStop a => HStop a (expr_ind' a)
    | EBool b => HBool b
    | ERel o l r => HRel o l r (expr_ind' l) (expr_ind' r)
    end.
End ExprInd.

(** ** Identity preserves values and well-formedness *)
Lemma all2_Forall {A} (f : A -> A -> bool) l m : all2 f l m = true -> Forall2 (fun a b => f a b = true) l m.
Proof.
  revert m; induction l as [|a l IH]; intros [|b m]; cbn; try discriminate; constructor.
  - now apply andb_prop in H.
  - apply IH. now apply andb_prop in H.
Qed.

Lemma set_rank_inj a b : set_rank a = set_rank b -> a = b.
Proof. destruct a, b; cbn; congruence. Qed.
Lemma set_eqb_eq a b : set_eqb a b = true -> a = b.
Proof. intros H. apply set_rank_inj. now apply Z.eqb_eq. Qed.
Lemma prim_rank_inj a b : prim_rank a = prim_rank b -> a = b.
Proof. destruct a, b; cbn; congruence. Qed.
Lemma symc_rank_inj a b : symc_rank a = symc_rank b -> a = b.
Proof. destruct a, b; cbn; congruence. Qed.
Lemma relop_rank_inj a b : relop_rank a = relop_rank b -> a = b.
Proof. destruct a, b; cbn; congruence. Qed.
Lemma fn_name_inj f g : fn_name f = fn_name g -> f = g.
Proof. destruct f, g; cbn; congruence. Qed.

Lemma var_ident_eq a b : var_ident a b = true -> a = b.
Proof.
  destruct a, b; cbn; try discriminate; intros H; rewrite ?andb_true_iff in H.
  - destruct H as [H1 H2]. apply String.eqb_eq in H1. apply set_eqb_eq in H2. congruence.
  - destruct H as [[H1 H2] H3]. apply String.eqb_eq in H1. apply Z.eqb_eq in H2, H3.
    apply prim_rank_inj in H3. congruence.
  - destruct H as [H1 H2]. apply Z.eqb_eq in H1. apply set_eqb_eq in H2. congruence.
Qed.

Lemma rat_eqb_eq a b : rat_eqb a b = true -> a = b.
Proof.
  unfold rat_eqb. rewrite andb_true_iff. intros [H1 H2]. apply Z.eqb_eq in H1, H2.
  destruct a, b; cbn in *; congruence.
Qed.

Lemma Forall2_map_eq {A B} (f g : A -> B) (R : A -> A -> Prop) l m :
  Forall2 R l m -> Forall (fun a => forall b, R a b -> f a = g b) l -> map f l = map g m.
Proof. induction 1; intros HF; inversion HF; subst; cbn; f_equal; auto. Qed.

Ltac ident_inv H :=
  rewrite ?andb_true_iff in H;
  repeat match goal with H : _ /\ _ |- _ => destruct H end;
  repeat match goal with
  | H : Z.eqb _ _ = true |- _ => apply Z.eqb_eq in H
  | H : String.eqb _ _ = true |- _ => apply String.eqb_eq in H
  | H : Bool.eqb _ _ = true |- _ => apply eqb_prop in H
  | H : rat_eqb _ _ = true |- _ => apply rat_eqb_eq in H
  | H : var_ident _ _ = true |- _ => apply var_ident_eq in H
  | H : all2 _ _ _ = true |- _ => apply all2_Forall in H
  | H : symc_rank _ = symc_rank _ |- _ => apply symc_rank_inj in H
  | H : relop_rank _ = relop_rank _ |- _ => apply relop_rank_inj in H
  | H : fn_name _ = fn_name _ |- _ => apply fn_name_inj in H
  end.

Lemma ident_eval s a : forall b, ident a b = true -> eval s a = eval s b.
Proof.
  induction a using expr_ind'; intros b' Hi; destruct b'; try discriminate Hi; cbn in Hi; ident_inv Hi;
    subst; cbn; auto.
  - f_equal. eapply Forall2_map_eq; eauto.
  - f_equal. eapply Forall2_map_eq; eauto.
  - now rewrite (IHa1 b'1), (IHa2 b'2).
  - f_equal. eapply Forall2_map_eq; eauto.
  - erewrite Forall2_map_eq; eauto.
  - now rewrite (IHa1 b'1), (IHa2 b'2), (IHa3 b'3).
  - now rewrite (IHa1 b'1), (IHa2 b'2).
Qed.

(** ** Well-formedness helpers *)
Lemma wf_list s l : fold_right (fun x P => wf s x /\ P) True l <-> Forall (wf s) l.
Proof.
  induction l; cbn; split; intros H; auto; [destruct H; constructor; tauto|].
  inversion H; subst. tauto.
Qed.

Lemma wf_EAdd s l : wf s (EAdd l) <-> Forall (wf s) l.
Proof. apply wf_list. Qed.
Lemma wf_EMul s l : wf s (EMul l) <->
  (2 <= List.length l)%nat /\ (List.length (filter is_num l) <= 1)%nat /\ Forall (fun x => is_zero x = false) l /\ Forall (wf s) l.
Proof. cbn. rewrite wf_list. tauto. Qed.

(** ** Number sets *)
Lemma in_set_max a b x : in_set a x -> in_set (set_max a b) x.
Proof. destruct a, b; cbn; auto; lra. Qed.
Lemma in_set_max_r a b x : in_set b x -> in_set (set_max a b) x.
Proof. destruct a, b; cbn; auto; lra. Qed.

Definition veq_set (v : val) (s : number_set) : Prop := forall x, v = Rv x -> in_set s x.

Lemma combine_add_sound a b u v : veq_set u a -> veq_set v b -> veq_set (vadd u v) (combine_sets_add a b).
Proof.
  intros Hu Hv x Hx. destruct u as [y| |], v as [z| |]; try discriminate Hx. injection Hx as <-.
  specialize (Hu y eq_refl). specialize (Hv z eq_refl).
  destruct a, b; cbn in *; auto; lra.
Qed.

Lemma combine_mul_sound a b u v : veq_set u a -> veq_set v b -> veq_set (vmul u v) (combine_sets_mul a b).
Proof.
  intros Hu Hv x Hx. unfold combine_sets_mul.
  destruct u as [y| |], v as [z| |]; try discriminate Hx; cbn in Hx.
  - injection Hx as <-. specialize (Hu y eq_refl). specialize (Hv z eq_refl).
    destruct a, b; cbn in *; auto; nra.
  - destruct (Req_EM_T y 0) as [E|]; [|discriminate]. injection Hx as <-.
    specialize (Hu y eq_refl). destruct a, b; cbn in *; auto; lra.
  - destruct (Req_EM_T z 0) as [E|]; [|discriminate]. injection Hx as <-.
    specialize (Hv z eq_refl). destruct a, b; cbn in *; auto; lra.
Qed.

Lemma combine_all_sound (f : number_set -> number_set -> number_set) op z0 :
  (forall a b u v, veq_set u a -> veq_set v b -> veq_set (op u v) (f a b)) ->
  (forall a b c, op a (op b c) = op (op a b) c) -> (forall a, op a (Rv z0) = a) ->
  forall ss vs, Forall2 veq_set vs ss -> ss <> [] ->
  veq_set (fold_right op (Rv z0) vs) (combine_all f ss).
Proof.
  intros Hf Ha H0 ss vs HF Hn. destruct HF as [|v s vs ss Hv HF]; [congruence|]. cbn.
  clear Hn. revert v s Hv. induction HF as [|v2 s2 vs ss Hv2 HF IH]; intros v s Hv; cbn.
  - now rewrite H0.
  - rewrite Ha. destruct s; try (apply IH; apply Hf; auto; fail).
    apply IH. intros x _. exact Logic.I.
Qed.

Lemma Forall2_map_map {A B C} (R : B -> C -> Prop) (f : A -> B) (g : A -> C) l :
  Forall (fun a => R (f a) (g a)) l -> Forall2 R (map f l) (map g l).
Proof. induction 1; cbn; constructor; auto. Qed.

Lemma powerRZ_even_nonneg x z : x <> 0 -> ck_is_even z = true -> 0 < powerRZ x z.
Proof.
  intros Hx He. apply ck_is_even_spec in He. destruct He as [k ->].
  rewrite Z.mul_comm, powerRZ_powerRZ by auto.
  assert (powerRZ x k <> 0) by (apply powerRZ_NOR; auto).
  change 2%Z with (1 + 1)%Z. rewrite powerRZ_add, powerRZ_1 by auto. nra.
Qed.

Lemma pow_set_sound bs es b e x env : veq_set b bs -> veq_set (eval env e) es -> vpow b (eval env e) = Rv x ->
  in_set (pow_set bs es e) x.
Proof.
  intros Hb He Hx. remember (eval env e) as ve eqn:Eve.
  destruct b as [r| |]; [|..].
  2: { cbn in Hx. destruct ve; try discriminate. destruct (Rlt_dec 0 x0); discriminate. }
  2: { cbn in Hx; discriminate. }
  destruct ve as [y| |]; [|discriminate..].
  specialize (Hb r eq_refl). specialize (He y eq_refl).
  assert (Hgen : r = 0 /\ 0 < y /\ x = 0 \/ 0 < r /\ 0 < x \/
                 r < 0 /\ exists z, y = IZR z /\ x = powerRZ r z).
  { cbn in Hx. destruct (Rlt_dec 0 r).
    - right; left. injection Hx as <-. split; auto. apply exp_pos.
    - destruct (Req_EM_T r 0).
      + destruct (Rlt_dec 0 y); [|discriminate]. injection Hx as <-. auto.
      + destruct (Req_EM_T y (IZR (Int_part y))); [|discriminate]. injection Hx as <-.
        right; right. split; [lra|]. exists (Int_part y); auto. }
  unfold pow_set.
  assert (Heven : forall n, e = EInt n -> ck_is_even n = true -> in_set (if contains_zero bs then real_non_negative else real_positive) x).
  { intros n -> Hn. cbn in Eve. injection Eve as ->.
    assert (0 <= x /\ (r <> 0 -> 0 < x)).
    { destruct Hgen as [(?&?&?)|[(?&?)|(?&z&?&?)]]; subst; try lra.
      apply eq_IZR in H0. subst z. assert (0 < powerRZ r n) by (apply powerRZ_even_nonneg; auto; lra). lra. }
    destruct bs; cbn in *; try lra. }
  assert (Hnn : is_non_negative bs = true -> in_set bs x).
  { destruct bs; try discriminate; intros _; cbn in *.
    - destruct Hgen as [(?&?&?)|[(?&?)|(?&?)]]; subst; try lra.
    - destruct Hgen as [(?&?&?)|[(?&?)|(?&?)]]; subst; try lra. }
  destruct e; destruct bs, es; cbn [contains_zero is_non_negative is_real_set negb andb]; cbn;
    try exact Logic.I;
    try (specialize (Hnn eq_refl); exact Hnn);
    try (match goal with |- context [ck_is_even ?z] => destruct (ck_is_even z) eqn:E end;
         [exact (Heven _ eq_refl E)|try (apply Hnn; reflexivity); exact Logic.I]).
Qed.

Lemma tanh_pos x : 0 < x -> 0 < tanh x.
Proof.
  intros H. unfold tanh. apply Rdiv_lt_0_compat.
  - unfold sinh. assert (exp (-x) < exp x) by (apply exp_increasing; lra). lra.
  - unfold cosh. assert (0 < exp x) by apply exp_pos. assert (0 < exp (-x)) by apply exp_pos. lra.
Qed.
Lemma sinh_pos x : 0 < x -> 0 < sinh x.
Proof. intros H. unfold sinh. assert (exp (-x) < exp x) by (apply exp_increasing; lra). lra. Qed.
Lemma cosh_pos x : 0 < cosh x.
Proof. unfold cosh. assert (0 < exp x) by apply exp_pos. assert (0 < exp (-x)) by apply exp_pos. lra. Qed.

Lemma Int_part_nonneg x : 0 <= x -> 0 <= IZR (Int_part x).
Proof.
  intros H. destruct (base_Int_part x) as [H1 H2].
  apply IZR_le. assert (-1 < IZR (Int_part x)) by lra. apply lt_IZR in H0. lia.
Qed.

Lemma fn_set_sound f ss vs x : Forall2 veq_set vs ss -> vfun f vs = Rv x ->
  (f = Flog -> Forall2 (fun v s => s = real_positive -> forall x, v = Rv x -> 1 < x) vs ss) -> in_set (fn_set f ss) x.
Proof.
  intros HF Hx Hlog. unfold fn_set. destruct (existsb (set_eqb unknown_set) ss); [exact Logic.I|].
  destruct HF as [|v s vs ss Hv HF]; [exact Logic.I|].
  destruct f; try exact Logic.I;
    try (destruct s; exact Logic.I);
    (destruct HF; [|destruct v; discriminate Hx]); destruct v as [y| |]; try discriminate Hx;
    specialize (Hv y eq_refl); cbn in Hx.
  - injection Hx as <-. destruct s; cbn; try apply cosh_pos; auto.
  - injection Hx as <-. destruct s; cbn in *; auto.
    + now apply sinh_pos.
    + destruct (Req_dec y 0) as [->|]; [rewrite sinh_0; lra|]. left. apply sinh_pos; lra.
  - injection Hx as <-. destruct s; cbn in *; auto.
    + now apply tanh_pos.
    + destruct (Req_dec y 0) as [->|]; [unfold tanh; rewrite sinh_0; unfold Rdiv; lra|]. left. apply tanh_pos; lra.
  - specialize (Hlog eq_refl). inversion Hlog; subst. destruct s; cbn; auto. assert (Hy : 1 < y) by auto.
    destruct (Rlt_dec 0 y); [injection Hx as <-|lra]. rewrite <- ln_1. apply ln_increasing; lra.
  - injection Hx as <-. destruct s; cbn; auto; apply exp_pos.
  - injection Hx as <-. destruct s; cbn in *; try apply Rabs_pos. apply Rabs_pos_lt; lra.
  - injection Hx as <-. unfold sign_R. destruct s; cbn in *; auto; vdec; lra.
  - injection Hx as <-. destruct s; cbn in *; auto; apply Int_part_nonneg; lra.
Qed.


Lemma num_set_sound z x : ((0 < z)%Z -> 0 < x) -> (z = 0%Z -> x = 0) ->
  in_set (num_set (0 <? z)%Z (z <? 0)%Z) x.
Proof.
  intros H1 H2. unfold num_set. destruct (0 <? z)%Z eqn:E1; cbn; [apply H1; lia|].
  destruct (z <? 0)%Z eqn:E2; cbn; auto. rewrite H2 by lia. lra.
Qed.

Lemma rat_val_pos q : (0 < den q)%Z -> (0 < num q)%Z -> 0 < rat_val q.
Proof. intros. unfold rat_val. apply Rdiv_lt_0_compat; now apply (IZR_lt 0). Qed.

Lemma is_bool_eval s c : is_bool c = true -> forall x, eval s c = Rv x -> x = 0 \/ x = 1.
Proof.
  destruct c; try discriminate; intros _ x; cbn.
  - destruct b; intros E; injection E; auto.
  - destruct (eval s c1), (eval s c2); try discriminate. cbn. destruct o; vdec; intros E; injection E; auto.
Qed.

Theorem determine_set_sound s e : env_ok s -> wf s e -> veq_set (eval s e) (determine_set e).
Proof.
  intros Henv. induction e using expr_ind'; intros Hwf x Hx; cbn [determine_set]; try exact Logic.I;
    try discriminate Hx.
  - cbn in Hx; injection Hx as <-. apply num_set_sound; auto; intros. now apply (IZR_lt 0). now subst.
  - cbn in Hx; injection Hx as <-. destruct Hwf as [(?&?&?&?) ?]. apply num_set_sound; auto; intros.
    + now apply rat_val_pos.
    + unfold rat_val. rewrite H4. unfold Rdiv. ring.
  - cbn. destruct c; cbn in Hx; injection Hx as <-; [apply exp_pos|apply PI_RGT_0].
  - cbn in Hx; injection Hx as <-. apply Henv.
  - apply wf_EMul in Hwf. destruct Hwf as (Hl & _ & _ & Hwf).
    revert x Hx. cbn [eval]. unfold vprod.
    apply (combine_all_sound combine_sets_mul vmul 1);
      [apply combine_mul_sound|apply vmul_assoc|apply vmul_1_r| |destruct l; cbn in *; [lia|congruence]].
    apply Forall2_map_map. rewrite Forall_forall in *. auto.
  - apply wf_EAdd in Hwf. destruct l as [|a l]; [exact Logic.I|].
    revert x Hx. cbn [eval]. unfold vsum.
    apply (combine_all_sound combine_sets_add vadd 0);
      [apply combine_add_sound|apply vadd_assoc|apply vadd_0_r| |cbn; congruence].
    apply Forall2_map_map. rewrite Forall_forall in *. auto.
  - destruct Hwf. eapply pow_set_sound; [apply IHe1; auto|apply IHe2; auto|exact Hx].
  - destruct Hwf as [Hwf Hlog]. apply wf_list in Hwf. apply (fn_set_sound f _ (map (eval s) l)); auto.
    + apply Forall2_map_map. rewrite Forall_forall in *. auto.
    + intros ->. apply Forall2_map_map. auto.
  - now apply IHe.
  - destruct Hwf as (H1 & H2 & H3). cbn in Hx. destruct (eval s e1) as [c| |]; try discriminate. cbn in Hx.
    destruct (Req_EM_T c 1); [apply in_set_max, IHe2; auto|].
    destruct (Req_EM_T c 0); [apply in_set_max_r, IHe3; auto|discriminate].
  - cbn in Hx. destruct Hwf as [Hb _]. cbn. destruct (is_bool_eval s e Hb x Hx); lra.
  - now apply IHe.
  - cbn. apply (is_bool_eval s (EBool b) eq_refl) in Hx. lra.
  - cbn [in_set]. apply (is_bool_eval s (ERel o e1 e2) eq_refl) in Hx. lra.
Qed.
