(** Properties of matrices. *)
From Coq Require Import String List ZArith Reals Bool Lra Lia.
From Verif Require Import Outcome CheckedIntProofs RationalModel RationalSpec ExprModel ExprSpec ValProofs ExprProofs NumProofs BuildModel BuildProofs PowProofs BuildProps
  FuncModel FuncProofs DerivModel DerivSpec DerivFnProofs MatrixModel MatOpsModel MatrixSpec MatrixProofs StackProofs.
Import ListNotations.
Open Scope Z_scope.
Open Scope outcome_scope.

(** ** Scalar operations for examples, and those of expressions *)
Definition z_ops : mat_ops Z :=
  {| op_zero := 0; op_one := 1; op_neg_one := -1; op_is_zero := Z.eqb 0;
     op_mul := fun a b => Ok (a * b); op_add := fun a b => Ok (a + b); op_sub := fun a b => Ok (a - b);
     op_div := fun a b => if (b =? 0) || negb (a mod b =? 0) then Throws else Ok (a / b);
     op_sum := fun l => Ok (fold_right Z.add 0 l) |}.
Lemma z_ops_sound : sound_ops z_ops (fun _ => True) IZR.
Proof.
  split; cbn.
  - auto.
  - auto.
  - auto.
  - intros e _ H. now destruct e.
  - intros a b e _ _ H. injection H as <-. split; auto. now rewrite mult_IZR.
  - intros a b e _ _ H. injection H as <-. split; auto. now rewrite plus_IZR.
  - intros a b e _ _ H. injection H as <-. split; auto. now rewrite minus_IZR.
  - intros a b e _ _ Hb H. destruct (Z.eqb_spec b 0); [discriminate|]. cbn in H. destruct (Z.eqb_spec (a mod b) 0) as [M|]; [|discriminate].
    injection H as <-. split; auto. rewrite (Z.div_mod a b) at 2 by auto. rewrite M, Z.add_0_r, mult_IZR. field. auto.
  - intros l e _ _ H. injection H as <-. split; auto. induction l as [|x l IH]; cbn; auto. now rewrite plus_IZR, IH.
Qed.

(** An expression that is well formed with a real value. *)
Definition real_valued (s : env) (e : expr) : Prop := wf s e /\ exists x, eval s e = Rv x.
Definition real_of (s : env) (e : expr) : R := match eval s e with Rv x => x | _ => 0%R end.
Lemma real_sound s e x : BuildProofs.sound s e (Rv x) -> real_valued s e /\ real_of s e = x.
Proof. intros [W H]. cbn in H. unfold real_valued, real_of. rewrite H. split; auto. split; eauto. Qed.

(** The operators of expressions compute with the values. *)
Theorem C21_expression_elements : forall I n s, impl_ok I -> env_ok s -> sound_ops (expr_ops I n) (real_valued s) (real_of s).
Proof.
  intros I n s HI Hs. split; cbn [expr_ops op_zero op_one op_neg_one op_is_zero op_mul op_add op_sub op_div op_sum].
  - apply real_sound. split; [apply (wf_numbers s)|reflexivity].
  - apply real_sound. split; [apply (wf_numbers s)|reflexivity].
  - apply real_sound. split; [apply (wf_numbers s)|reflexivity].
  - intros e _ H. destruct e; try discriminate. apply Z.eqb_eq in H. subst. reflexivity.
  - intros a b e [Wa [x Ea]] [Wb [y Eb]] H. apply (e_mul2_sound I HI s Hs) in H; auto. rewrite Ea, Eb in H. apply real_sound in H. unfold real_of at 2 3. now rewrite Ea, Eb.
  - intros a b e [Wa [x Ea]] [Wb [y Eb]] H. apply (add2_sound I HI s Hs) in H; auto. rewrite Ea, Eb in H. apply real_sound in H. unfold real_of at 2 3. now rewrite Ea, Eb.
  - intros a b e [Wa [x Ea]] [Wb [y Eb]] H. apply (sub_sound I HI s Hs) in H; auto. rewrite Ea, Eb in H. cbn [vmul vadd] in H. apply real_sound in H.
    unfold real_of at 2 3. rewrite Ea, Eb. destruct H as [H1 H2]. split; auto. rewrite H2. ring.
  - intros a b e [Wa [x Ea]] [Wb [y Eb]] N H. apply (div_sound I HI s Hs) in H; auto. unfold real_of in N. rewrite Eb in N. rewrite Ea, Eb, vpow_m1 in H by auto.
    apply real_sound in H. unfold real_of at 2 3. now rewrite Ea, Eb.
  - intros l e _ G H. apply (add_sound I HI s Hs) in H. 2: { eapply Forall_impl; [|exact G]. intros a [W _]. exact W. }
    assert (V : vsum (map (eval s) l) = Rv (fold_right (fun a r => (real_of s a + r)%R) 0%R l)).
    { clear H. induction G as [|a l [W [x Ea]] _ IH]; cbn [map vsum fold_right]; auto. fold (vsum (map (eval s) l)). rewrite IH, Ea. unfold real_of at 2. now rewrite Ea. }
    rewrite V in H. now apply real_sound in H.
Qed.
Print Assumptions C21_expression_elements.
Example C21_expression_elements_ex :
  op_sum (expr_ops impl_ex 10) [vx; EInt 2; vx] = Ok (EAdd [EInt 2; EMul [EInt 2; vx]]) /\
  op_div (expr_ops impl_ex 10) vx (EInt 2) = Ok (EMul [half; vx]) /\ op_sub (expr_ops impl_ex 10) vx vx = Ok (EInt 0).
Proof. repeat split; vm_compute; reflexivity. Qed.

(** ** C21 *)
Definition m23 : matrix Z := mk_matrix 2 3 [1; 2; 3; 4; 5; 6].
Definition m22 : matrix Z := mk_matrix 2 2 [7; 8; 9; 10].
Lemma valid_of (m : matrix Z) : in_i64b (m_rows m) && in_i64b (m_cols m) && (0 <=? m_rows m) && (0 <=? m_cols m)
  && (Z.of_nat (length (m_data m)) =? m_rows m * m_cols m) && in_i64b (m_rows m * m_cols m) = true -> valid m.
Proof.
  unfold valid, in_i64b. rewrite !andb_true_iff, !Z.leb_le, Z.eqb_eq. intros (((((H1 & H2) & H3) & H4) & H5) & H6). unfold in_i64. tauto.
Qed.
(** The size of a matrix of scalars is one element for each pair of indices, and reading is checked. *)
Theorem C21_elements : forall E (m : matrix E) i j, valid m ->
  (in_range (m_rows m) (m_cols m) i j -> exists e, at_ m i j = Ok e /\ entry m i j = Some e) /\
  (~ in_range (m_rows m) (m_cols m) i j -> at_ m i j = Throws) /\
  (m_rows m = 1 -> at_vec m j = at_ m 0 j) /\ (m_cols m = 1 -> at_vec m i = at_ m i 0) /\
  (m_rows m <> 1 -> m_cols m <> 1 -> at_vec m i = Throws).
Proof.
  intros E m i j V. split; [now apply at_ok|]. split; [apply at_throws|]. pose proof V as (A & B & C & D & L & F). unfold at_vec. rewrite L.
  split; [|split].
  - intros H. rewrite H, Z.eqb_refl. cbn [negb andb]. rewrite Z.mul_1_l. destruct (Z.ltb_spec j 0); cbn [orb].
    + symmetry. apply at_throws. unfold in_range. lia.
    + destruct (Z.leb_spec (m_cols m) j). { symmetry. apply at_throws. unfold in_range. lia. }
      destruct (at_ok m 0 j V) as (e & He & Ee); [split; lia|]. rewrite He. destruct (entry_some m 0 j V) as (e' & Ee' & N); [split; lia|].
      rewrite Z.mul_0_l, Z.add_0_l in N. rewrite N. congruence.
  - intros H. rewrite H, Z.eqb_refl, andb_false_r, Z.mul_1_r. destruct (Z.ltb_spec i 0); cbn [orb].
    + symmetry. apply at_throws. unfold in_range. lia.
    + destruct (Z.leb_spec (m_rows m) i). { symmetry. apply at_throws. unfold in_range. lia. }
      destruct (at_ok m i 0 V) as (e & He & Ee); [split; lia|]. rewrite He. destruct (entry_some m i 0 V) as (e' & Ee' & N); [split; lia|].
      rewrite H, Z.mul_1_r, Z.add_0_r in N. rewrite N. congruence.
  - intros H1 H2. apply Z.eqb_neq in H1, H2. now rewrite H1, H2.
Qed.
Print Assumptions C21_elements.
Example C21_elements_ex : at_ m23 1 0 = Ok 4 /\ at_ m23 2 0 = Throws /\ at_ m23 0 (-1) = Throws /\ at_vec m23 0 = Throws /\
  at_vec (mk_matrix 3 1 [4; 5; 6]) 2 = Ok 6.
Proof. repeat split; vm_compute; reflexivity. Qed.

(** A matrix made from a list of elements is one with exactly as many elements as its shape asks for. *)
Theorem C21_construction : forall E r c (data : list E), 
  (0 <= r -> 0 <= c -> in_i64 r -> in_i64 c -> in_i64 (r * c) -> Z.of_nat (length data) = r * c ->
   exists m, make_matrix r c data = Ok m /\ is_matrix m r c (fun i j => nth_error data (Z.to_nat (i * c + j)))) /\
  (in_i64 r -> in_i64 c -> r < 0 \/ c < 0 \/ (r * c < 2 ^ 64 /\ Z.of_nat (length data) <> r * c) -> make_matrix r c data = Throws).
Proof.
  intros E r c data. split.
  - intros Hr Hc Ir Ic I L. destruct (make_ok r c data) as [M V]; auto. exists (mk_matrix r c data). split; auto. split; auto. split; auto. split; auto.
    intros i j H. rewrite entry_of by auto. split; auto. rewrite nth_error_Some. destruct H. nia.
  - intros Ir Ic H. unfold make_matrix. destruct (negb _) eqn:N; auto. destruct (Z.ltb_spec r 0), (Z.ltb_spec c 0); cbn [orb]; auto.
    exfalso. destruct H as [H|[H|[Hlt Hne]]]; [lia|lia|]. apply negb_false_iff, Z.eqb_eq in N. i64.
    rewrite (Z.mod_small r), (Z.mod_small c), Z.mod_small in N by nia. congruence.
Qed.
Print Assumptions C21_construction.
Example C21_construction_ex : make_matrix 2 3 [1; 2; 3; 4; 5; 6] = Ok m23 /\ make_matrix 2 2 [1; 2; 3] = Throws /\ make_matrix (-1) 0 (@nil Z) = Throws.
Proof. repeat split; vm_compute; reflexivity. Qed.

Theorem C21_transpose : forall E (m : matrix E), valid m ->
  exists t, transposed m = Ok t /\ is_matrix t (m_cols m) (m_rows m) (fun i j => entry m j i).
Proof. intros E m V. now apply transposed_ok. Qed.
Print Assumptions C21_transpose.
Example C21_transpose_ex : valid m23 /\ transposed m23 = Ok (mk_matrix 3 2 [1; 4; 2; 5; 3; 6]).
Proof. split; [now apply valid_of|vm_compute; reflexivity]. Qed.

Theorem C21_block : forall E (m : matrix E) row col nr nc, valid m ->
  (0 <= row -> 0 <= col -> 0 <= nr -> 0 <= nc -> row + nr <= m_rows m -> col + nc <= m_cols m ->
   exists b, get_block m row col nr nc = Ok b /\ is_matrix b nr nc (fun i j => entry m (row + i) (col + j))) /\
  (in_i64 (row + nr) -> in_i64 (col + nc) -> row < 0 \/ col < 0 \/ m_rows m < row + nr \/ m_cols m < col + nc ->
   get_block m row col nr nc = Throws) /\
  (forall b, get_block m row col nr nc = Ok b -> 0 <= nr /\ 0 <= nc).
Proof.
  intros E m row col nr nc V. split; [now apply block_ok|]. split; [now apply block_throws|]. intros b. apply block_negative.
Qed.
Print Assumptions C21_block.
Example C21_block_ex : get_block m23 0 1 2 2 = Ok (mk_matrix 2 2 [2; 3; 5; 6]) /\ get_block m23 0 2 2 2 = Throws /\ get_block m23 2 3 0 0 = Ok (mk_matrix 0 0 []).
Proof. repeat split; vm_compute; reflexivity. Qed.

(** Reshaping keeps the elements in row-major order; vectorising stacks the columns. *)
Theorem C21_reshape : forall E (m : matrix E) r c, valid m ->
  (0 <= r -> 0 <= c -> in_i64 r -> in_i64 c -> r * c = m_rows m * m_cols m ->
   exists t, reshape m r c = Ok t /\ valid t /\ m_rows t = r /\ m_cols t = c /\
   forall i j i' j', in_range r c i j -> in_range (m_rows m) (m_cols m) i' j' -> i * c + j = i' * m_cols m + j' -> entry t i j = entry m i' j') /\
  (in_i64 (r * c) -> r < 0 \/ c < 0 \/ r * c <> m_rows m * m_cols m -> reshape m r c = Throws) /\
  (exists t, vectorize_matrix m = Ok t /\ is_matrix t (m_rows m * m_cols m) 1 (fun k _ => entry m (k mod m_rows m) (k / m_rows m))).
Proof.
  intros E m r c V. split; [|split].
  - intros Hr Hc Ir Ic H. destruct (reshape_ok m r c V Hr Hc Ir Ic H) as [M W]. eexists. split; [exact M|]. split; auto. split; auto. split; auto.
    intros i j i' j' Rij Rij' Eq. rewrite entry_of by auto. destruct (entry_some m i' j' V Rij') as (e & -> & N). now rewrite Eq.
  - now apply reshape_throws.
  - now apply vec_ok.
Qed.
Print Assumptions C21_reshape.
Example C21_reshape_ex : reshape m23 3 2 = Ok (mk_matrix 3 2 [1; 2; 3; 4; 5; 6]) /\ reshape m23 4 2 = Throws /\
  vectorize_matrix m23 = Ok (mk_matrix 6 1 [1; 4; 2; 5; 3; 6]).
Proof. repeat split; vm_compute; reflexivity. Qed.
(** Shapes whose number of elements does not fit: the check is made modulo 2^64. An empty matrix can be given a shape
    with indices, and reading then is out of bounds. *)
Theorem C21_reshape_refuted : exists (m t : matrix Z) i j, valid m /\ reshape m (2 ^ 32) (2 ^ 32) = Ok t /\
  in_range (m_rows t) (m_cols t) i j /\ at_ t i j = UB.
Proof.
  exists (mk_matrix 0 0 []), (mk_matrix (2 ^ 32) (2 ^ 32) []), 0, 0. split; [now apply valid_of|]. split; [vm_compute; reflexivity|].
  split; [|vm_compute; reflexivity]. unfold in_range. cbn [m_rows m_cols]. lia.
Qed.
Print Assumptions C21_reshape_refuted.

Theorem C21_stacking : forall E (ops : mat_ops E) ms, Forall valid ms -> ms <> [] ->
  (forall r, Forall (fun m => m_rows m = r) ms -> in_i64 (sum_cols ms) -> in_i64 (r * sum_cols ms) ->
   exists m, hstack ops ms = Ok m /\ is_matrix m r (sum_cols ms) (beside ms)) /\
  (forall c, Forall (fun m => m_cols m = c) ms -> in_i64 (sum_rows ms) -> in_i64 (sum_rows ms * c) ->
   exists m, vstack ops ms = Ok m /\ is_matrix m (sum_rows ms) c (below ms)) /\
  (in_i64 (sum_rows ms) -> in_i64 (sum_cols ms) -> in_i64 (sum_rows ms * sum_cols ms) ->
   exists m, diagonal_stack ops ms = Ok m /\ is_matrix m (sum_rows ms) (sum_cols ms) (along (op_zero ops) ms)).
Proof.
  intros E ops ms V N. split; [|split].
  - intros r. now apply hstack_ok.
  - intros c. now apply vstack_ok.
  - now apply diagonal_stack_ok.
Qed.
Print Assumptions C21_stacking.
Example C21_stacking_ex :
  hstack z_ops [m23; m22; mk_matrix 2 0 []; mk_matrix 2 1 [0; 1]] = Ok (mk_matrix 2 6 [1; 2; 3; 7; 8; 0; 4; 5; 6; 9; 10; 1]) /\
  vstack z_ops [m22; mk_matrix 1 2 [11; 12]] = Ok (mk_matrix 3 2 [7; 8; 9; 10; 11; 12]) /\
  diagonal_stack z_ops [mk_matrix 1 2 [1; 2]; mk_matrix 0 1 []; m22] = Ok (mk_matrix 3 5 [1; 2; 0; 0; 0; 0; 0; 0; 7; 8; 0; 0; 0; 9; 10]) /\
  Forall valid [mk_matrix 1 2 [1; 2]; mk_matrix 0 1 []; m22].
Proof.
  split; [vm_compute; reflexivity|]. split; [vm_compute; reflexivity|]. split; [vm_compute; reflexivity|].
  constructor; [now apply valid_of|]. constructor; [now apply valid_of|]. constructor; [now apply valid_of|]. constructor.
Qed.
(** Shapes that do not fit together, and nothing to stack. *)
Theorem C21_stacking_rejects : forall E (ops : mat_ops E) m0 ms, Forall valid (m0 :: ms) ->
  (in_i64 (sum_cols (m0 :: ms)) -> Exists (fun m => m_rows m <> m_rows m0) ms -> hstack ops (m0 :: ms) = Throws) /\
  (in_i64 (sum_rows (m0 :: ms)) -> Exists (fun m => m_cols m <> m_cols m0) ms -> vstack ops (m0 :: ms) = Throws) /\
  hstack ops [] = Throws /\ vstack ops [] = Throws /\ diagonal_stack ops [] = Throws /\ diagonal ops [] = Throws.
Proof.
  intros E ops m0 ms V. assert (N : Forall nonneg (m0 :: ms)) by (eapply Forall_impl; [|exact V]; intros; now apply valid_nonneg).
  split; [|split; [|repeat split]].
  - intros I H. unfold hstack. destruct (total_cols_spec (m_rows m0) (m0 :: ms) 0 N ltac:(lia) I) as [_ T]. rewrite T by (now right). reflexivity.
  - intros I H. unfold vstack. destruct (total_rows_spec (m_cols m0) (m0 :: ms) 0 N ltac:(lia) I) as [_ T]. rewrite T by (now right). reflexivity.
Qed.
Print Assumptions C21_stacking_rejects.
Example C21_stacking_rejects_ex : hstack z_ops [m23; mk_matrix 1 2 [1; 2]] = Throws /\ vstack z_ops [m23; m22] = Throws.
Proof. repeat split; vm_compute; reflexivity. Qed.

Theorem C21_constructors : forall E (ops : mat_ops E),
  (forall r c, 0 < r -> 0 < c -> in_i64 r -> in_i64 c -> in_i64 (r * c) ->
   exists m, make_zeros ops r c = Ok m /\ is_matrix m r c (fun _ _ => Some (op_zero ops))) /\
  (forall r c, 0 < r -> 0 < c -> in_i64 r -> in_i64 c -> in_i64 (r * c) ->
   exists m, make_identity ops r (Some c) = Ok m /\ is_matrix m r c (fun i j => Some (if i =? j then op_one ops else op_zero ops))) /\
  (forall r, make_identity ops r None = make_identity ops r (Some r)) /\
  (forall r c, r <= 0 \/ c <= 0 -> make_zeros ops r c = Throws /\ make_identity ops r (Some c) = Throws) /\
  (forall l, l <> [] -> let n := Z.of_nat (length l) in in_i64 (n * n) ->
   exists m, diagonal ops l = Ok m /\ is_matrix m n n (fun i j => if i =? j then nth_error l (Z.to_nat i) else Some (op_zero ops))).
Proof.
  intros E ops. split; [|split; [|split; [|split]]].
  - intros r c Hr Hc Ir Ic I. unfold make_zeros. destruct (Z.leb_spec r 0), (Z.leb_spec c 0); try lia. cbn [orb]. unfold mach_mul. rewrite mach_ok by auto. cbn [bind].
    destruct (make_ok r c (repeat (op_zero ops) (Z.to_nat (r * c)))) as [M V]; auto; try lia. { rewrite repeat_length. nia. }
    eexists. split; [exact M|]. split; auto. split; auto. split; auto. intros i j [Hi Hj]. rewrite entry_of by (split; auto). split; [|discriminate].
    apply nth_error_repeat. nia.
  - intros r c Hr Hc Ir Ic I. unfold make_identity. destruct (Z.leb_spec r 0), (Z.leb_spec c 0); try lia. cbn [orb]. apply create_ok; auto; try lia. intros; eauto.
  - reflexivity.
  - intros r c H. unfold make_zeros, make_identity. destruct (Z.leb_spec r 0), (Z.leb_spec c 0); cbn [orb]; auto; lia.
  - intros l Hl n I. unfold diagonal. destruct l as [|x l]; [congruence|]. fold n. assert (0 < n) by (unfold n; cbn; lia). apply create_ok; auto; try (i64; nia).
    intros i j [Hi Hj]. destruct (i =? j); eauto. destruct (nth_error (x :: l) (Z.to_nat i)) eqn:Q; eauto. apply nth_error_None in Q. lia.
Qed.
Print Assumptions C21_constructors.
Example C21_constructors_ex : make_zeros z_ops 1 2 = Ok (mk_matrix 1 2 [0; 0]) /\ make_identity z_ops 2 (Some 3) = Ok (mk_matrix 2 3 [1; 0; 0; 0; 1; 0]) /\
  diagonal z_ops [4; 5] = Ok (mk_matrix 2 2 [4; 0; 0; 5]) /\ make_zeros z_ops 0 2 = Throws.
Proof. repeat split; vm_compute; reflexivity. Qed.

(** The product, by value. *)
Theorem C21_product : forall E (ops : mat_ops E) good v, sound_ops ops good v ->
  (forall a b r n c A B m, has_values good v a r n A -> has_values good v b n c B -> in_i64 (r * c) -> mat_mul ops a b = Ok m ->
   has_values good v m r c (fun i j => sum_n (Z.to_nat n) (fun k => (A i k * B k j)%R))) /\
  (forall a b, m_cols a <> m_rows b -> mat_mul ops a b = Throws).
Proof.
  intros E ops good v SO. split.
  - intros. eapply mat_mul_values; eauto.
  - intros a b H. unfold mat_mul. apply Z.eqb_neq in H. now rewrite H.
Qed.
Print Assumptions C21_product.
Example C21_product_ex : mat_mul z_ops m22 m23 = Ok (mk_matrix 2 3 [39; 54; 69; 49; 68; 87]) /\ mat_mul z_ops m23 m22 = Throws /\
  mat_mul z_ops (mk_matrix 2 0 []) (mk_matrix 0 1 []) = Ok (mk_matrix 2 1 [0; 0]) /\
  mat_mul (expr_ops impl_ex 10) (mk_matrix 1 2 [vx; EInt 2]) (mk_matrix 2 1 [vx; vy]) = Ok (mk_matrix 1 1 [EAdd [EMul [EInt 2; vy]; EPow vx (EInt 2)]]).
Proof. repeat split; vm_compute; reflexivity. Qed.

Theorem C21_elementwise : forall E (ops : mat_ops E) good v, sound_ops ops good v ->
  (forall a b r c A B m, has_values good v a r c A -> has_values good v b r c B -> mat_add ops a b = Ok m ->
   has_values good v m r c (fun i j => A i j + B i j)%R) /\
  (forall a b r c A B m, has_values good v a r c A -> has_values good v b r c B -> mat_sub ops a b = Ok m ->
   has_values good v m r c (fun i j => A i j - B i j)%R) /\
  (forall a b r c A m, has_values good v a r c A -> good b -> mat_scale ops a b = Ok m -> has_values good v m r c (fun i j => A i j * v b)%R) /\
  (forall a b, m_rows a <> m_rows b \/ m_cols a <> m_cols b -> mat_add ops a b = Throws /\ mat_sub ops a b = Throws).
Proof.
  intros E ops good v SO. split; [|split; [|split]].
  - intros a b r c A B m HA HB H. eapply (zip_values good v) with (g := Rplus); eauto. apply (so_add _ _ _ SO).
  - intros a b r c A B m HA HB H. eapply (zip_values good v) with (g := Rminus); eauto. apply (so_sub _ _ _ SO).
  - intros. eapply scale_values; eauto.
  - intros a b H. unfold mat_add, mat_sub, mat_zip. destruct (Z.eqb_spec (m_rows a) (m_rows b)), (Z.eqb_spec (m_cols a) (m_cols b)); cbn; auto. lia.
Qed.
Print Assumptions C21_elementwise.
Example C21_elementwise_ex : mat_add z_ops m22 m22 = Ok (mk_matrix 2 2 [14; 16; 18; 20]) /\ mat_sub z_ops m22 m23 = Throws /\ mat_scale z_ops m22 3 = Ok (mk_matrix 2 2 [21; 24; 27; 30]).
Proof. repeat split; vm_compute; reflexivity. Qed.
