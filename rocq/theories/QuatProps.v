(** C44: quaternions and rotations. *)
From Coq Require Import List ZArith Reals Bool Lra Lia Psatz.
From Verif Require Import Outcome ExprSpec QuatModel QuatSpec QuatProofs QuatJacProofs CalcProofs.
Import ListNotations.
Open Scope R_scope.

Theorem C44_algebra :
  (forall a b c, q_mul (q_mul a b) c = q_mul a (q_mul b c)) /\
  (forall a, q_mul q_identity a = a /\ q_mul a q_identity = a) /\
  (forall a b, squared_norm (q_mul a b) = squared_norm a * squared_norm b) /\
  (forall a b, conjugate (q_mul a b) = q_mul (conjugate b) (conjugate a)) /\
  (forall a, a <> mkq 0 0 0 0 -> q_mul a (inverse a) = q_identity /\ q_mul (inverse a) a = q_identity) /\
  (forall a, a <> mkq 0 0 0 0 -> unit_quat (normalized a)).
Proof.
  assert (nz : forall a, a <> mkq 0 0 0 0 -> squared_norm a <> 0).
  { intros [w x y z] H E. apply H. unfold squared_norm in E. cbn [qw qx qy qz] in E.
    assert (w = 0 /\ x = 0 /\ y = 0 /\ z = 0) as (-> & -> & -> & ->) by (repeat split; nra). reflexivity. }
  repeat apply conj.
  - apply mul_assoc.
  - intros [w x y z]. split; apply quat_ext; cbn [q_mul q_identity qw qx qy qz]; ring.
  - apply norm_mul.
  - apply conj_mul.
  - intros a H. apply nz in H. destruct a as [w x y z]. unfold inverse, q_mul, q_identity. unfold squared_norm in *. cbn [qw qx qy qz] in *.
    split; apply quat_ext; cbn [qw qx qy qz]; field; auto.
  - intros a H. apply normalized_unit. auto.
Qed.
Print Assumptions C44_algebra.
Example C44_algebra_ex : q_mul (mkq 1 2 0 0) (mkq 0 0 3 0) = mkq 0 0 3 6.
Proof. apply quat_ext; cbn; ring. Qed.

Theorem C44_storage : forall q,
  from_vector_wxyz 4 1 (to_vector_wxyz q) = Ok q /\ from_vector_xyzw 4 1 (to_vector_xyzw q) = Ok q /\
  forall rows cols l, (rows, cols) <> (4, 1)%Z -> from_vector_wxyz rows cols l = Throws /\ from_vector_xyzw rows cols l = Throws.
Proof.
  intros [w x y z]. repeat split; intros; unfold from_vector_wxyz, from_vector_xyzw;
    destruct (Z.eqb_spec rows 4), (Z.eqb_spec cols 1); cbn; congruence.
Qed.
Print Assumptions C44_storage.
Example C44_storage_ex : from_vector_xyzw 4 1 [1; 2; 3; 4] = Ok (mkq 4 1 2 3).
Proof. reflexivity. Qed.

(** The matrix of a unit quaternion is a rotation, acts as conjugation, and composes with multiplication. *)
Theorem C44_rotation_matrix : forall q, unit_quat q ->
  rotation (to_rotation_matrix q) /\
  (forall v, act (to_rotation_matrix q) v = rotate q v) /\
  to_rotation_matrix (q_neg q) = to_rotation_matrix q /\
  to_rotation_matrix (conjugate q) = to_rotation_matrix (inverse q) /\
  (forall p, unit_quat p -> unit_quat (q_mul p q) /\
     to_rotation_matrix (q_mul p q) = mat_mul (to_rotation_matrix p) (to_rotation_matrix q)).
Proof.
  intros q U. repeat split.
  1-7: apply rot_rotation in U; apply U.
  - intros v. now apply rot_act.
  - destruct q as [w x y z]. unfold to_rotation_matrix, q_neg. cbn [qw qx qy qz]. apply mat_ext; m; ring.
  - f_equal. unfold inverse, conjugate, squared_norm. unfold unit_quat in U. rewrite U. apply quat_ext; cbn [qw qx qy qz]; field.
  - now apply unit_mul.
  - intros. now apply rot_mul.
Qed.
Print Assumptions C44_rotation_matrix.
Example C44_rotation_matrix_ex : act (to_rotation_matrix (mkq (3 / 5) 0 0 (4 / 5))) (mkv 1 0 0) = mkv (- (7 / 25)) (24 / 25) 0.
Proof. unfold to_rotation_matrix. vec. cbn [qw qx qy qz]. apply vec_ext; m; field. Qed.

(** Every rotation matrix, in every branch of the conversion. *)
Theorem C44_from_rotation_matrix : forall m, rotation m ->
  unit_quat (from_rotation_matrix m) /\ to_rotation_matrix (from_rotation_matrix m) = m.
Proof. exact from_rot. Qed.
Print Assumptions C44_from_rotation_matrix.
Example C44_from_rotation_matrix_ex :
  rotation (mkm (-1) 0 0 0 1 0 0 0 (-1)) /\ from_rotation_matrix (mkm (-1) 0 0 0 1 0 0 0 (-1)) = mkq 0 0 1 0.
Proof.
  split; [unfold rotation; vec; repeat split; ring|]. unfold from_rotation_matrix. m.
  destruct (Rlt_dec 0 (-1 + 1 + -1)); [lra|]. destruct (Rlt_dec (-1) 1); [|lra]. destruct (Rlt_dec 1 (-1)); [lra|].
  replace (1 - -1 + 1 - -1) with (2 * 2) by ring. rewrite sqrt_square by lra. apply quat_ext; cbn [qw qx qy qz]; field.
Qed.

(** Angle and axis. *)
Theorem C44_angle_axis : forall angle k v, unit_vec k ->
  let q := from_angle_axis angle (v0 k) (v1 k) (v2 k) in
  unit_quat q /\ rotate q v = turn angle k v /\ act (to_rotation_matrix q) v = turn angle k v.
Proof.
  intros t [a b c] v U. cbn [v0 v1 v2]. cbn zeta. pose proof (angle_axis_unit t a b c U) as A. repeat split; auto.
  - rewrite <- rot_act by auto. now apply angle_axis_turn.
  - now apply angle_axis_turn.
Qed.
Print Assumptions C44_angle_axis.
Example C44_angle_axis_ex : rotate (from_z_angle (PI / 2)) (mkv 1 0 0) = mkv 0 1 0.
Proof.
  unfold from_z_angle. change (from_angle_axis (PI / 2) 0 0 1) with (from_angle_axis (PI / 2) (v0 (mkv 0 0 1)) (v1 (mkv 0 0 1)) (v2 (mkv 0 0 1))).
  rewrite (proj1 (proj2 (C44_angle_axis (PI / 2) (mkv 0 0 1) (mkv 1 0 0) ltac:(unfold unit_vec; vec; ring)))).
  unfold turn. rewrite cos_PI2, sin_PI2. vec. apply vec_ext; m; ring.
Qed.

Theorem C44_to_angle_axis : forall q eps, unit_quat q ->
  let n := length (mkv (qx q) (qy q) (qz q)) in
  match eps with Some e => e < n | None => True end -> n <> 0 ->
  let (angle, k) := to_angle_axis false q eps in
  0 < angle <= PI /\ unit_vec k /\
  (from_angle_axis angle (v0 k) (v1 k) (v2 k) = q \/ from_angle_axis angle (v0 k) (v1 k) (v2 k) = q_neg q).
Proof.
  intros q eps U n E N. assert (W : to_angle_axis false q eps = to_angle_axis false q None).
  { destruct eps; [now apply angle_axis_eps|reflexivity]. }
  rewrite W. destruct (angle_axis_back q U N) as (A & B & C). destruct (to_angle_axis false q None) as [t k]. cbn [fst snd] in *.
  repeat split; try tauto. rewrite C. apply scaled_cases.
Qed.
Print Assumptions C44_to_angle_axis.
(** At or below the threshold, and where the vector part is known to be zero, the answer is no rotation. *)
Theorem C44_to_angle_axis_small : forall q eps zero,
  zero = true \/ length (mkv (qx q) (qy q) (qz q)) <= eps ->
  to_angle_axis zero q (Some eps) = (0, mkv 1 0 0) /\ to_angle_axis true q None = (0, mkv 1 0 0).
Proof.
  intros q eps zero H. split; [|reflexivity]. destruct zero; [reflexivity|]. destruct H as [H|H]; [discriminate|].
  unfold to_angle_axis. change (sqrt (qx q * qx q + qy q * qy q + qz q * qz q)) with (length (mkv (qx q) (qy q) (qz q))).
  destruct (Rlt_dec eps (length (mkv (qx q) (qy q) (qz q)))); [lra|reflexivity].
Qed.
Print Assumptions C44_to_angle_axis_small.
Example C44_to_angle_axis_ex : to_angle_axis false (mkq 0 0 (-1) 0) None = (PI, mkv 0 (-1) 0).
Proof.
  unfold to_angle_axis. cbn [qw qx qy qz]. replace (0 * 0 + -1 * -1 + 0 * 0) with 1 by ring. rewrite sqrt_1, Rabs_R0.
  destruct (Rlt_dec 0 0); [lra|]. unfold atan2_R. destruct (Rlt_dec 0 0); [lra|]. destruct (Rlt_dec 0 1); [|lra].
  f_equal; [field|]. apply vec_ext; m; field.
Qed.

(** Rotation vectors. *)
Theorem C44_rotation_vector : forall w eps v,
  match eps with Some e => e < length w | None => True end -> length w <> 0 ->
  let q := from_rotation_vector (v0 w) (v1 w) (v2 w) eps in
  unit_quat q /\ rotate q v = turn (length w) (times (/ length w) w) v.
Proof.
  intros [a b c] eps v E N. cbn [v0 v1 v2]. change (length (mkv a b c)) with (vlen a b c) in *.
  assert (W : from_rotation_vector a b c eps = from_rotation_vector a b c None) by (destruct eps; [now apply rotvec_eps|reflexivity]).
  cbn zeta. rewrite W, rotvec_axis by auto. pose proof (unit_axis a b c N) as U.
  destruct (C44_angle_axis (vlen a b c) _ v U) as (A & B & _). cbn [v0 v1 v2] in *. split; [exact A|].
  rewrite B. f_equal. unfold times. apply vec_ext; m; field; auto.
Qed.
Print Assumptions C44_rotation_vector.
(** The small-angle form always has unit norm, and is the identity at zero. *)
Theorem C44_rotation_vector_small : forall w eps, 0 <= eps ->
  unit_quat (from_rotation_vector (v0 w) (v1 w) (v2 w) (Some eps)) /\ from_rotation_vector 0 0 0 (Some eps) = q_identity.
Proof.
  intros [a b c] eps E. split; [now apply rotvec_unit|]. unfold from_rotation_vector. replace (0 * 0 + 0 * 0 + 0 * 0) with 0 by ring. rewrite sqrt_0.
  destruct (Rlt_dec eps 0); [lra|]. unfold normalized, norm, squared_norm. cbn [qw qx qy qz].
  replace (1 * 1 + 0 / 2 * (0 / 2) + 0 / 2 * (0 / 2) + 0 / 2 * (0 / 2)) with 1 by field. rewrite sqrt_1. apply quat_ext; cbn; field.
Qed.
Print Assumptions C44_rotation_vector_small.
(** Both formulas for the logarithm, inverted: the same rotation, at most half a turn. *)
Theorem C44_rotation_vector_round_trip : forall q use_atan2, unit_quat q ->
  let v := to_rotation_vector q (Some 0) use_atan2 in
  length v <= PI /\ (from_rotation_vector (v0 v) (v1 v) (v2 v) (Some 0) = q \/ from_rotation_vector (v0 v) (v1 v) (v2 v) (Some 0) = q_neg q) /\
  (forall eps, eps < length (mkv (qx q) (qy q) (qz q)) -> to_rotation_vector q (Some eps) use_atan2 = to_rotation_vector q None use_atan2 /\
     (0 <= eps -> to_rotation_vector q (Some eps) use_atan2 = v)).
Proof.
  intros q b U v. destruct (rotvec_round q b U) as [A B]. fold v in A, B. repeat split.
  - exact A.
  - rewrite B. apply scaled_cases.
  - now apply rotvec_of_eps.
  - intros E. unfold v. rewrite !rotvec_of_eps; auto. change (vnorm q) with (length (mkv (qx q) (qy q) (qz q))). lra.
Qed.
Print Assumptions C44_rotation_vector_round_trip.
Example C44_rotation_vector_ex : to_rotation_vector (mkq 0 1 0 0) (Some 0) true = mkv PI 0 0.
Proof.
  unfold to_rotation_vector. cbn [qw qx qy qz]. replace (1 * 1 + 0 * 0 + 0 * 0) with 1 by ring. rewrite sqrt_1, Rabs_R0.
  destruct (Rlt_dec 0 0); [lra|]. destruct (Rlt_dec 0 1); [|lra]. unfold atan2_R. destruct (Rlt_dec 0 0); [lra|]. destruct (Rlt_dec 0 1); [|lra].
  apply vec_ext; m; field.
Qed.

(** The left jacobian is the integral of the rotations by the fractions of [w]; the other function is its inverse. *)
Theorem C44_left_jacobian : forall w v t,
  let J u := times u (act (left_jacobian_of_so3 (times u w) (Some 0)) v) in
  let turned := turn (t * length w) (times (/ length w) w) v in
  derivable_pt_lim (fun u => v0 (J u)) t (v0 turned) /\ derivable_pt_lim (fun u => v1 (J u)) t (v1 turned) /\
  derivable_pt_lim (fun u => v2 (J u)) t (v2 turned) /\ J 0 = mkv 0 0 0 /\ J 1 = act (left_jacobian_of_so3 w (Some 0)) v.
Proof.
  intros w v t J turned. repeat split.
  1-3: apply upto_deriv; auto.
  - unfold J, times. apply vec_ext; m; ring.
  - unfold J. replace (times 1 w) with w by (apply vec_ext; unfold times; m; ring). unfold times. apply vec_ext; m; ring.
Qed.
Print Assumptions C44_left_jacobian.
Theorem C44_left_jacobian_inverse : forall w eps,
  match eps with Some e => e < length w | None => True end -> length w <> 0 -> sin (length w) <> 0 ->
  mat_mul (inverse_left_jacobian_of_so3 w eps) (left_jacobian_of_so3 w eps) = mat_one /\
  mat_mul (left_jacobian_of_so3 w eps) (inverse_left_jacobian_of_so3 w eps) = mat_one.
Proof.
  intros w eps E N S. destruct eps as [e|]; [|now apply jac_inverse]. destruct (jac_eps w e E) as [-> ->]. now apply jac_inverse.
Qed.
Print Assumptions C44_left_jacobian_inverse.
Example C44_left_jacobian_ex : act (left_jacobian_of_so3 (mkv 0 0 PI) (Some 0)) (mkv 1 0 0) = mkv 0 (2 / PI) 0.
Proof.
  pose proof PI_RGT_0. unfold left_jacobian_of_so3. m. replace (0 * 0 + 0 * 0 + PI * PI) with (PI * PI) by ring. rewrite sqrt_square by lra.
  destruct (Rlt_dec 0 PI); [|contradiction]. rewrite cos_PI, sin_PI.
  match goal with |- act (mat_add (mat_add mat_one (mat_scale (skew ?w) ?c)) (mat_scale _ ?d)) _ = _ => fold (series w c d) end.
  rewrite series_act. vec. apply vec_ext; m; field; lra.
Qed.
