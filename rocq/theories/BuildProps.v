(** Properties of expression building: number sets, sums, products and powers keep their real value. *)
From Coq Require Import String List ZArith Reals Bool Permutation Lra Lia.
From Verif Require Import Outcome CheckedIntModel CheckedIntSpec CheckedIntProofs RationalModel RationalSpec RationalProofs IntUtilsModel IntFloatModel
  ExprModel ExprSpec ValProofs ExprProofs NumProofs BuildModel BuildProofs PowProofs FuelProofs.
Import ListNotations.
Open Scope R_scope.

(** A concrete instance of the parameters and some variables, for the examples. *)
Definition impl_ex : impl :=
  mk_impl (fun _ => 0%Z) (fun l => l) (fun l => l) (fun a b => a) (fun _ z => z) (fun a b => a).
Lemma impl_ex_ok : impl_ok impl_ex.
Proof. split; intros; apply Permutation_refl. Qed.
Definition vx : expr := EVar (VNamed "x" real_set).
Definition vy : expr := EVar (VNamed "y" real_set).
Definition vp : expr := EVar (VNamed "p" real_positive).
Definition half : expr := ERat (mk_rat 1 2).

(** ** C11 *)
Theorem C11_number_set_sound : forall s e x,
  env_ok s -> wf s e -> eval s e = Rv x ->
  match determine_set e with
  | real_positive => 0 < x
  | real_non_negative => 0 <= x
  | _ => True
  end.
Proof. intros s e x Hs Hw Hx. exact (determine_set_sound s e Hs Hw x Hx). Qed.
Print Assumptions C11_number_set_sound.
Example C11_number_set_sound_ex :
  determine_set (EMul [vp; EPow vx (EInt 2)]) = real_non_negative /\
  determine_set (EAdd [EFun Fexp [vx]; vp]) = real_positive /\
  determine_set (EAdd [vx; vp]) = real_set /\
  determine_set (EFun Fatan2 [vx; vy]) = unknown_set /\
  determine_set (EPow vx (EInt (-1))) = unknown_set.
Proof. repeat split; vm_compute; reflexivity. Qed.

(** log of a positive argument is classified positive: log(1/2) is not. *)
Theorem C11_log_refuted : exists s e x,
  env_ok s /\ eval s e = Rv x /\ determine_set e = real_positive /\ x < 0.
Proof.
  exists (mk_env (fun _ => / 2) (fun _ _ => 0)), (EFun Flog [vp]), (ln (/ 2)).
  split; [intros v; cbn; destruct (var_set v); cbn; auto; lra|]. split; [|split].
  - assert (H2 : 0 < / 2) by lra. cbn. vdec; auto; contradiction.
  - reflexivity.
  - rewrite <- ln_1. apply ln_increasing; lra.
Qed.
Print Assumptions C11_log_refuted.

(** ** C12 *)
(** [reals_of l s xs]: under [s] the operands have the real values [xs]. *)
Definition reals_of (s : env) (l : list expr) (xs : list R) : Prop := map (eval s) l = map Rv xs.

Lemma vsum_reals xs : vsum (map Rv xs) = Rv (fold_right Rplus 0 xs).
Proof. induction xs; cbn; auto. unfold vsum in IHxs. now rewrite IHxs. Qed.
Lemma vprod_reals xs : vprod (map Rv xs) = Rv (fold_right Rmult 1 xs).
Proof. induction xs; cbn; auto. unfold vprod in IHxs. now rewrite IHxs. Qed.

Theorem C12_sum_keeps_value : forall I n s l xs e,
  impl_ok I -> env_ok s -> Forall (wf s) l -> reals_of s l xs ->
  e_add I n l = Ok e ->
  eval s e = Rv (fold_right Rplus 0 xs) /\ wf s e.
Proof.
  intros I n s l xs e HI Hs Hl Hx H. destruct (s_add _ _ (spec_ops_n I s HI Hs n) l e Hl H) as [W V].
  split; auto. unfold reals_of in Hx. rewrite Hx, vsum_reals in V. exact V.
Qed.
Print Assumptions C12_sum_keeps_value.
Example C12_sum_keeps_value_ex :
  e_add impl_ex 10 [vx; EAdd [EInt 3; EMul [EInt 2; vy]]; EMul [EInt (-1); vy]; half; vx] =
    Ok (EAdd [ERat (mk_rat 7 2); vy; EMul [EInt 2; vx]]) /\
  e_add impl_ex 10 [EMul [EInt 2; vx]; EMul [EInt (-2); vx]] = Ok (EInt 0).
Proof. split; vm_compute; reflexivity. Qed.

(** Whatever the operands are, the sum carries at least as much information as the sum of the values. *)
Theorem C12_sum_refines : forall I n s l e,
  impl_ok I -> env_ok s -> Forall (wf s) l -> e_add I n l = Ok e ->
  refines (eval s e) (fold_right vadd (Rv 0) (map (eval s) l)) /\ wf s e.
Proof. intros I n s l e HI Hs Hl H. destruct (s_add _ _ (spec_ops_n I s HI Hs n) l e Hl H); split; auto. Qed.
Print Assumptions C12_sum_refines.
Example C12_sum_refines_ex : e_add impl_ex 10 [vx; EImag; EMul [EInt (-1); EImag]] = Ok vx.
Proof. vm_compute; reflexivity. Qed.

Theorem C12_difference_keeps_value : forall I n s a b x y e,
  impl_ok I -> env_ok s -> wf s a -> wf s b -> eval s a = Rv x -> eval s b = Rv y ->
  e_sub I n a b = Ok e -> eval s e = Rv (x - y) /\ wf s e.
Proof.
  intros I n s a b x y e HI Hs Ha Hb Hx Hy H. unfold e_sub in H. binv H.
  destruct (s_mul2 _ _ (spec_ops_n I s HI Hs n) (EInt (-1)) b x0) as [W V]; auto. { apply (wf_numbers s). }
  destruct (s_add _ _ (spec_ops_n I s HI Hs n) [a; x0] e) as [W2 V2]; auto.
  split; auto. cbn [map] in V2. rewrite vsum_two in V2. cbn [eval] in V. rewrite Hy in V. cbn in V. rewrite V, Hx in V2.
  cbn in V2. rewrite V2. f_equal. ring.
Qed.
Print Assumptions C12_difference_keeps_value.
Example C12_difference_keeps_value_ex :
  e_sub impl_ex 10 (EAdd [vx; vy]) (EAdd [vy; EInt 2]) = Ok (EAdd [EInt (-2); vx]).
Proof. vm_compute; reflexivity. Qed.

(** The recursion depth given to the model does not influence a result. *)
Theorem C12_depth_irrelevant : forall I n m l o,
  (n <= m)%nat -> e_add I n l = o -> o <> NoFuel -> e_add I m l = o.
Proof. intros I n m l o Hn <- Ho. destruct (le_add _ _ (ops_n_le I n m Hn) l) as [H|H]; [contradiction|symmetry; exact H]. Qed.
Print Assumptions C12_depth_irrelevant.
Example C12_depth_irrelevant_ex :
  e_add impl_ex 1 [vx; EInt 1; vx] = NoFuel /\
  e_add impl_ex 2 [vx; EInt 1; vx] = Ok (EAdd [EInt 1; EMul [EInt 2; vx]]).
Proof. split; vm_compute; reflexivity. Qed.

(** ** C14 *)
Theorem C14_product_keeps_value : forall I n s l xs e,
  impl_ok I -> env_ok s -> Forall (wf s) l -> reals_of s l xs ->
  e_mul I n l = Ok e ->
  eval s e = Rv (fold_right Rmult 1 xs) /\ wf s e.
Proof.
  intros I n s l xs e HI Hs Hl Hx H. destruct (s_mul _ _ (spec_ops_n I s HI Hs n) l e Hl H) as [W V].
  split; auto. unfold reals_of in Hx. rewrite Hx, vprod_reals in V. exact V.
Qed.
Print Assumptions C14_product_keeps_value.
Example C14_product_keeps_value_ex :
  e_mul impl_ex 10 [vx; EInt 2; EPow vx (EInt 2); EPow vy half; EPow vy half; ERat (mk_rat 3 4)] =
    Ok (EMul [ERat (mk_rat 3 2); vy; EPow vx (EInt 3)]) /\
  e_mul impl_ex 10 [EPow (EInt 12) half; EPow (EInt 3) half] = Ok (EMul [EInt 2; EPow (EInt 3) half; EPow (EInt 3) half]) /\
  e_mul impl_ex 10 [EInt 2; EAdd [vx; vy]] = Ok (EAdd [EMul [EInt 2; vx]; EMul [EInt 2; vy]]).
Proof. repeat split; vm_compute; reflexivity. Qed.

Theorem C14_product_refines : forall I n s l e,
  impl_ok I -> env_ok s -> Forall (wf s) l -> e_mul I n l = Ok e ->
  refines (eval s e) (fold_right vmul (Rv 1) (map (eval s) l)) /\ wf s e.
Proof. intros I n s l e HI Hs Hl H. destruct (s_mul _ _ (spec_ops_n I s HI Hs n) l e Hl H); split; auto. Qed.
Print Assumptions C14_product_refines.
Example C14_product_refines_ex :
  e_mul impl_ex 10 [vx; EInf] = Ok (EMul [EInf; vx]) /\ e_mul impl_ex 10 [EInt 0; EInf] = Ok EUndef.
Proof. split; vm_compute; reflexivity. Qed.

Theorem C14_two_factors_keep_value : forall I n s a b x y e,
  impl_ok I -> env_ok s -> wf s a -> wf s b -> eval s a = Rv x -> eval s b = Rv y ->
  e_mul2 I n a b = Ok e -> eval s e = Rv (x * y) /\ wf s e.
Proof.
  intros I n s a b x y e HI Hs Ha Hb Hx Hy H.
  destruct (s_mul2 _ _ (spec_ops_n I s HI Hs n) a b e Ha Hb H) as [W V]. split; auto.
  rewrite Hx, Hy in V. exact V.
Qed.
Print Assumptions C14_two_factors_keep_value.
Example C14_two_factors_keep_value_ex :
  e_mul2 impl_ex 10 (EMul [EInt 2; vx]) (EPow vx (EInt (-1))) = Ok (EInt 2).
Proof. vm_compute; reflexivity. Qed.

Theorem C14_quotient_keeps_value : forall I n s a b x y e,
  impl_ok I -> env_ok s -> wf s a -> wf s b -> eval s a = Rv x -> eval s b = Rv y -> y <> 0 ->
  e_div I n a b = Ok e -> eval s e = Rv (x / y) /\ wf s e.
Proof.
  intros I n s a b x y e HI Hs Ha Hb Hx Hy Hy0 H. unfold e_div in H. binv H.
  destruct (s_pow _ _ (spec_ops_n I s HI Hs n) b (EInt (-1)) x0) as [W V]; auto. { apply (wf_numbers s). }
  destruct (s_mul2 _ _ (spec_ops_n I s HI Hs n) a x0 e) as [W2 V2]; auto.
  split; auto. rewrite Hx in V2. cbn [eval] in V. rewrite Hy, vpow_int in V by auto. cbn in V. rewrite V in V2.
  cbn in V2. rewrite V2. f_equal. change (Pos.to_nat 1) with 1%nat. rewrite pow_1. reflexivity.
Qed.
Print Assumptions C14_quotient_keeps_value.
Example C14_quotient_keeps_value_ex :
  e_div impl_ex 10 (EMul [vx; vy]) (EMul [EInt 2; vx]) = Ok (EMul [half; vy]).
Proof. vm_compute; reflexivity. Qed.

Theorem C14_depth_irrelevant : forall I n m l o,
  (n <= m)%nat -> e_mul I n l = o -> o <> NoFuel -> e_mul I m l = o.
Proof. intros I n m l o Hn <- Ho. destruct (le_mul _ _ (ops_n_le I n m Hn) l) as [H|H]; [contradiction|symmetry; exact H]. Qed.
Print Assumptions C14_depth_irrelevant.
Example C14_depth_irrelevant_ex :
  e_mul impl_ex 2 [vx; EInt 2] = NoFuel /\ e_mul impl_ex 4 [vx; EInt 2] = Ok (EMul [EInt 2; vx]).
Proof. split; vm_compute; reflexivity. Qed.

(** ** C16 *)
(** The real powers: x^y for positive x, 0^y for positive y, and integer powers of non-zero numbers. *)
Inductive real_power : R -> R -> R -> Prop :=
| rp_positive x y : 0 < x -> real_power x y (Rpower x y)
| rp_zero y : 0 < y -> real_power 0 y 0
| rp_integer x z : x <> 0 -> real_power x (IZR z) (powerRZ x z).

Lemma real_power_vpow x y v : real_power x y v -> vpow (Rv x) (Rv y) = Rv v.
Proof. destruct 1; [now apply vpow_pos|now apply vpow_zero|now apply vpow_int]. Qed.

Theorem C16_power_keeps_value : forall I n s b x p q v e,
  impl_ok I -> env_ok s -> wf s b -> wf s x -> eval s b = Rv p -> eval s x = Rv q -> real_power p q v ->
  e_pow I n b x = Ok e -> eval s e = Rv v /\ wf s e.
Proof.
  intros I n s b x p q v e HI Hs Hb Hx Ep Eq Hp H.
  destruct (s_pow _ _ (spec_ops_n I s HI Hs n) b x e Hb Hx H) as [W V]. split; auto.
  rewrite Ep, Eq, (real_power_vpow _ _ _ Hp) in V. exact V.
Qed.
Print Assumptions C16_power_keeps_value.
Example C16_power_keeps_value_ex :
  e_pow impl_ex 10 (EPow vx half) (EInt 4) = Ok (EPow vx (EInt 2)) /\
  e_pow impl_ex 10 (EPow vx (EInt 2)) half = Ok (EPow (EPow vx (EInt 2)) half) /\
  e_pow impl_ex 10 (EPow vp (EInt 2)) half = Ok vp /\
  e_pow impl_ex 10 (EMul [EInt 4; vx; vp]) half = Ok (EMul [EInt 2; EPow vp half; EPow vx half]) /\
  e_pow impl_ex 10 (EMul [EInt 2; vx]) (EInt (-2)) = Ok (EMul [ERat (mk_rat 1 4); EPow vx (EInt (-2))]).
Proof. repeat split; vm_compute; reflexivity. Qed.

(** Also for the intermediate values that are not real. *)
Theorem C16_power_refines : forall I n s b x e,
  impl_ok I -> env_ok s -> wf s b -> wf s x -> e_pow I n b x = Ok e ->
  refines (eval s e) (vpow (eval s b) (eval s x)) /\ wf s e.
Proof. intros I n s b x e HI Hs Hb Hx H. destruct (s_pow _ _ (spec_ops_n I s HI Hs n) b x e Hb Hx H); split; auto. Qed.
Print Assumptions C16_power_refines.
Example C16_power_refines_ex :
  e_pow impl_ex 10 EImag (EInt 2) = Ok (EInt (-1)) /\ e_pow impl_ex 10 (EInt 0) (EInt (-3)) = Ok EInf.
Proof. split; vm_compute; reflexivity. Qed.

Theorem C16_depth_irrelevant : forall I n m b x o,
  (n <= m)%nat -> e_pow I n b x = o -> o <> NoFuel -> e_pow I m b x = o.
Proof. intros I n m b x o Hn <- Ho. destruct (le_pow _ _ (ops_n_le I n m Hn) b x) as [H|H]; [contradiction|symmetry; exact H]. Qed.
Print Assumptions C16_depth_irrelevant.
Example C16_depth_irrelevant_ex :
  e_pow impl_ex 1 vx (EInt 2) = NoFuel /\ e_pow impl_ex 2 vx (EInt 2) = Ok (EPow vx (EInt 2)).
Proof. split; vm_compute; reflexivity. Qed.

(** The classification of log breaks powers of powers: (log(x)^2)^(1/2) becomes log(x), negative at x = 1/2. *)
Theorem C16_log_refuted : exists I n s b x p q v e,
  impl_ok I /\ env_ok s /\ eval s b = Rv p /\ eval s x = Rv q /\ real_power p q v /\
  e_pow I n b x = Ok e /\ eval s e <> Rv v.
Proof.
  set (s := mk_env (fun _ => / 2) (fun _ _ => 0)).
  exists impl_ex, 10%nat, s, (EPow (EFun Flog [vp]) (EInt 2)), half.
  assert (Hl : ln (/ 2) < 0) by (rewrite <- ln_1; apply ln_increasing; lra).
  assert (El : eval s (EFun Flog [vp]) = Rv (ln (/ 2))) by (assert (H2 : 0 < / 2) by lra; cbn; vdec; auto; contradiction).
  exists (powerRZ (ln (/ 2)) 2), (1 / 2), (Rpower (powerRZ (ln (/ 2)) 2) (1 / 2)), (EFun Flog [vp]).
  split; [exact impl_ex_ok|]. split; [intros v; cbn; destruct (var_set v); cbn; auto; lra|].
  split; [cbn [eval map]; cbn [eval map] in El; rewrite El; apply vpow_int; lra|].
  split; [reflexivity|]. split; [apply rp_positive; cbn; change (Pos.to_nat 2) with 2%nat; cbn; nra|]. split; [vm_compute; reflexivity|].
  rewrite El. intros HX. apply (Rlt_asym _ _ Hl).
  replace (ln (/ 2)) with (Rpower (powerRZ (ln (/ 2)) 2) (1 / 2)); [apply exp_pos|injection HX; auto].
Qed.
Print Assumptions C16_log_refuted.

(** ** C10 *)
Definition is_constant (b : expr) (p : R) : Prop :=
  (exists z, b = EInt z /\ in_i64 z /\ p = IZR z) \/
  (exists q, b = ERat q /\ canonical (num q) (den q) /\ den q <> 1%Z /\ p = IZR (num q) / IZR (den q)).

Lemma is_constant_eval b p s : is_constant b p -> wf s b /\ eval s b = Rv p.
Proof. intros [(z & -> & H & ->)|(q & -> & H1 & H2 & ->)]; split; auto. split; auto. Qed.

Theorem C10_numeric_power_keeps_value : forall I n s b x p q v e,
  impl_ok I -> env_ok s -> is_constant b p -> is_constant x q -> real_power p q v ->
  e_pow I n b x = Ok e -> eval s e = Rv v.
Proof.
  intros I n s b x p q v e HI Hs Hb Hx Hv H.
  destruct (is_constant_eval b p s Hb) as [B1 B2]. destruct (is_constant_eval x q s Hx) as [X1 X2].
  exact (proj1 (C16_power_keeps_value I n s b x p q v e HI Hs B1 X1 B2 X2 Hv H)).
Qed.
Print Assumptions C10_numeric_power_keeps_value.
Example C10_numeric_power_keeps_value_ex :
  e_pow impl_ex 10 (EInt 360) (ERat (mk_rat 5 6)) =
    Ok (EMul [EInt 12; EPow (EInt 2) half; EPow (EInt 3) (ERat (mk_rat 2 3)); EPow (EInt 5) (ERat (mk_rat 5 6))]) /\
  e_pow impl_ex 10 (EInt 360) (ERat (mk_rat (-7) 2)) = Ok (EMul [ERat (mk_rat 1 2799360000); EPow (EInt 10) half]) /\
  e_pow impl_ex 10 (ERat (mk_rat (-2) 3)) (EInt (-3)) = Ok (ERat (mk_rat (-27) 8)) /\
  e_pow impl_ex 10 (EInt 10) (EInt 19) = Throws.
Proof. repeat split; vm_compute; reflexivity. Qed.

(** ** C47 *)
Lemma ck_half z : in_i64 z -> ck_div z 2 = Ok (Z.quot z 2).
Proof. intros H. apply RationalProofs.ck_div_pos; auto; unfold_range; lia. Qed.
Lemma zeven_mod z : Z.even z = (z mod 2 =? 0)%Z.
Proof. rewrite Zmod_even. destruct (Z.even z); reflexivity. Qed.
Lemma even_b z : ck_is_even z = Z.even z.
Proof. unfold ck_is_even. rewrite Z.bit0_odd, <- Z.negb_even, negb_involutive. reflexivity. Qed.

Lemma make_mul_pair I a b : (type_rank a =? type_rank b)%Z = false -> (type_rank b =? type_rank a)%Z = false ->
  exists l, Permutation l [a; b] /\ make_mul I [a; b] = Ok (EMul l).
Proof.
  intros H1 H2. apply Z.eqb_neq in H1. apply Z.eqb_neq in H2.
  assert (HO : forall x y, type_rank x <> type_rank y -> exists c, order x y = Ok c).
  { intros x y Hxy. assert (HC : order_by_comparison (type_rank x) (type_rank y) <> Eq).
    { unfold order_by_comparison. destruct (Z.ltb_spec (type_rank x) (type_rank y)); [discriminate|].
      destruct (Z.ltb_spec (type_rank y) (type_rank x)); [discriminate|]. lia. }
    destruct x; cbn [order]; destruct (order_by_comparison _ _); try contradiction; eauto. }
  unfold make_mul. cbn [sort_terms bind sort_insert]. unfold sort_lt.
  destruct (HO b a) as [c Hc]; auto.
  destruct (_ <? _)%Z; cbn [bind]; [exists [b; a]; split; [apply perm_swap|reflexivity]|].
  destruct (_ >? _)%Z; cbn [bind]; [exists [a; b]; split; auto|]. rewrite Hc. cbn [bind].
  destruct c; cbn [bind]; [exists [a; b]; auto|exists [b; a]; split; [apply perm_swap|reflexivity]|exists [a; b]; auto].
Qed.

Theorem C47_integer_powers_of_i : forall I n z,
  in_i64 z ->
  exists l, Permutation l [EInt (-1); EImag] /\
  e_pow I (S (S n)) EImag (EInt z) =
  Ok (if (z mod 4 =? 0)%Z then EInt 1 else if (z mod 4 =? 1)%Z then EImag
      else if (z mod 4 =? 2)%Z then EInt (-1) else EMul l).
Proof.
  intros I n z Hz.
  assert (E : e_pow I (S (S n)) EImag (EInt z) = i_pow_int I z).
  { cbn [e_pow ops_n o_pow step_ops]. unfold pow_body. cbn [o_simp ops_n step_ops]. unfold simp_body. cbn [pow_numerics].
    cbn -[i_pow_int]. destruct (i_pow_int I z); reflexivity. }
  rewrite E. unfold i_pow_int, imaginary_unit_power. rewrite ck_half by auto. cbn [bind].
  rewrite !even_b.
  assert (HE : Z.even z = (z mod 2 =? 0)%Z) by apply zeven_mod.
  assert (HH : Z.even (Z.quot z 2) = (Z.quot z 2 mod 2 =? 0)%Z) by apply zeven_mod.
  rewrite HE, HH. clear E HE HH.
  destruct (make_mul_pair I (EInt (-1)) EImag eq_refl eq_refl) as (l & Hl & Hneg). exists l. split; auto.
  destruct (Z.eqb_spec (z mod 4) 0) as [H0|H0]; [|destruct (Z.eqb_spec (z mod 4) 1) as [H1|H1]; [|destruct (Z.eqb_spec (z mod 4) 2) as [H2|H2]]].
  - replace (z mod 2 =? 0)%Z with true by (symmetry; apply Z.eqb_eq; Z.to_euclidean_division_equations; lia).
    replace (Z.quot z 2 mod 2 =? 0)%Z with true by (symmetry; apply Z.eqb_eq; Z.to_euclidean_division_equations; lia).
    auto.
  - replace (z mod 2 =? 0)%Z with false by (symmetry; apply Z.eqb_neq; Z.to_euclidean_division_equations; lia).
    destruct (Z.ltb_spec 0 z).
    + replace (Z.quot z 2 mod 2 =? 0)%Z with true by (symmetry; apply Z.eqb_eq; Z.to_euclidean_division_equations; lia). auto.
    + replace (Z.quot z 2 mod 2 =? 0)%Z with false by (symmetry; apply Z.eqb_neq; Z.to_euclidean_division_equations; lia). auto.
  - replace (z mod 2 =? 0)%Z with true by (symmetry; apply Z.eqb_eq; Z.to_euclidean_division_equations; lia).
    replace (Z.quot z 2 mod 2 =? 0)%Z with false by (symmetry; apply Z.eqb_neq; Z.to_euclidean_division_equations; lia).
    auto.
  - replace (z mod 2 =? 0)%Z with false by (symmetry; apply Z.eqb_neq; Z.to_euclidean_division_equations; lia).
    destruct (Z.ltb_spec 0 z).
    + replace (Z.quot z 2 mod 2 =? 0)%Z with false by (symmetry; apply Z.eqb_neq; Z.to_euclidean_division_equations; lia). auto.
    + replace (Z.quot z 2 mod 2 =? 0)%Z with true by (symmetry; apply Z.eqb_eq; Z.to_euclidean_division_equations; lia). auto.
Qed.
Print Assumptions C47_integer_powers_of_i.
Example C47_integer_powers_of_i_ex :
  e_pow impl_ex 2 EImag (EInt (-5)) = Ok (EMul [EInt (-1); EImag]) /\
  e_pow impl_ex 2 EImag (EInt INT64_MIN) = Ok (EInt 1).
Proof. split; vm_compute; reflexivity. Qed.

(** Rational powers: i^q has argument pi/2 * q; [phase_of e t] reads off the argument of the result. *)
Inductive phase_of : expr -> R -> Prop :=
| ph_pow x t : (forall s, eval s x = Rv t) -> phase_of (EPow EImag x) (PI / 2 * t)
| ph_neg x t l : (forall s, eval s x = Rv t) -> Permutation l [EInt (-1); EPow EImag x] -> phase_of (EMul l) (PI + PI / 2 * t).

Lemma i_power_mod z p : in_i64 z -> imaginary_unit_power z = Ok p ->
  exists k, IZR z = 4 * IZR k + match p with IOne => 0 | II => 1 | INegOne => 2 | INegI => 3 end.
Proof.
  intros Hz H. unfold imaginary_unit_power in H. rewrite ck_half in H by auto. cbn [bind] in H. rewrite !even_b in H.
  rewrite (zeven_mod z), (zeven_mod (Z.quot z 2)) in H.
  exists (z / 4)%Z.
  assert (HM : forall c, (z mod 4 = c)%Z -> IZR z = 4 * IZR (z / 4) + IZR c).
  { intros c Hc. rewrite (Z_div_mod_eq_full z 4) at 1. rewrite Hc, plus_IZR, mult_IZR. ring. }
  destruct (Z.eqb_spec (z mod 2) 0); [|destruct (Z.ltb_spec 0 z)];
    destruct (Z.eqb_spec (Z.quot z 2 mod 2) 0); cbn in H; injection H as <-; apply HM; Z.to_euclidean_division_equations; lia.
Qed.

Theorem C47_rational_powers_of_i : forall I n q e,
  canonical (num q) (den q) -> den q <> 1%Z ->
  e_pow I (S (S n)) EImag (ERat q) = Ok e ->
  exists t k, phase_of e t /\ t = PI / 2 * (IZR (num q) / IZR (den q)) + 2 * PI * IZR k.
Proof.
  intros I n q e Hq Hd H.
  assert (E : e_pow I (S (S n)) EImag (ERat q) = i_pow_rat I q).
  { cbn [e_pow ops_n o_pow step_ops]. unfold pow_body. cbn [o_simp ops_n step_ops]. unfold simp_body. cbn [pow_numerics].
    cbn -[i_pow_rat]. destruct (i_pow_rat I q); reflexivity. }
  rewrite E in H. clear E. unfold i_pow_rat in H. binv H. destruct x as [ip fr].
  apply factorize_exponent_inv in E; auto. destruct E as (I1 & I2 & I3 & I4). fold (rat_val q).
  destruct (num fr <? 0)%Z; [discriminate|]. binv H. destruct (i_power_mod _ _ I1 E) as [k Hk].
  assert (Hone : forall x f1, rat_make 1 1 = Ok x -> rat_add fr x = Ok f1 -> canon f1 /\ rat_val f1 = rat_val fr + 1).
  { intros y f1 X1 X2. apply rat_make_inv in X1; try (unfold_range; lia). destruct X1 as [Y1 Y2].
    apply rat_add_inv in X2; auto. destruct X2 as [Z1 Z2]. split; auto. rewrite Z2, Y2. lra. }
  assert (Hmk := fun a => make_mul_pair I (EInt (-1)) (EPow EImag a) eq_refl eq_refl).
  destruct x.
  - binv H. injection H as <-. apply of_rat_inv in E0; auto. destruct E0 as (_ & V & _).
    exists (PI / 2 * rat_val fr), (- k)%Z. split; [econstructor; eauto|]. rewrite I3, Hk, opp_IZR. field.
  - binv H. destruct (Hmk x) as (l & Hl & Hml). rewrite Hml in H. injection H as <-. apply of_rat_inv in E0; auto. destruct E0 as (_ & V & _).
    exists (PI + PI / 2 * rat_val fr), (- k)%Z. split; [econstructor; eauto|]. rewrite I3, Hk, opp_IZR. field.
  - destruct (ip =? 1)%Z.
    + injection H as <-. exists (PI / 2 * rat_val q), 0%Z. split; [econstructor; eauto|]. ring.
    + binv H. binv H. binv H. injection H as <-. destruct (Hone _ _ E0 E1) as [C1 V1].
      apply of_rat_inv in E2; auto. destruct E2 as (_ & V & _). rewrite V1 in V.
      exists (PI / 2 * (rat_val fr + 1)), (- k)%Z. split; [econstructor; eauto|]. rewrite I3, Hk, opp_IZR. field.
  - binv H. binv H. binv H. destruct (Hmk x1) as (l & Hl & Hml). rewrite Hml in H. injection H as <-. destruct (Hone _ _ E0 E1) as [C1 V1].
    apply of_rat_inv in E2; auto. destruct E2 as (_ & V & _). rewrite V1 in V.
    exists (PI + PI / 2 * (rat_val fr + 1)), (- k)%Z. split; [econstructor; eauto|]. rewrite I3, Hk, opp_IZR. field.
Qed.
Print Assumptions C47_rational_powers_of_i.
Example C47_rational_powers_of_i_ex :
  e_pow impl_ex 2 EImag (ERat (mk_rat 7 3)) = Ok (EMul [EInt (-1); EPow EImag (ERat (mk_rat 1 3))]) /\
  e_pow impl_ex 2 EImag (ERat (mk_rat (-1) 2)) = Ok (EMul [EInt (-1); EPow EImag (ERat (mk_rat 3 2))]).
Proof. split; vm_compute; reflexivity. Qed.
