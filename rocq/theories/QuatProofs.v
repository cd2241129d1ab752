(** Proofs about quaternions. *)
From Coq Require Import List ZArith Reals Bool Lra Lia Psatz.
From Verif Require Import Outcome ExprSpec QuatModel QuatSpec.
Import ListNotations.
Open Scope R_scope.

Ltac vec := unfold act, plus, times, col0, col1, col2, cross, dot; cbn [v0 v1 v2 m00 m01 m02 m10 m11 m12 m20 m21 m22].
Lemma quat_ext a b : qw a = qw b -> qx a = qx b -> qy a = qy b -> qz a = qz b -> a = b.
Proof. destruct a, b; cbn. congruence. Qed.
Lemma vec_ext a b : v0 a = v0 b -> v1 a = v1 b -> v2 a = v2 b -> a = b.
Proof. destruct a, b; cbn. congruence. Qed.
Lemma mat_ext a b : m00 a = m00 b -> m01 a = m01 b -> m02 a = m02 b -> m10 a = m10 b -> m11 a = m11 b -> m12 a = m12 b ->
  m20 a = m20 b -> m21 a = m21 b -> m22 a = m22 b -> a = b.
Proof. destruct a, b; cbn. congruence. Qed.

Lemma rot_rotation q : unit_quat q -> rotation (to_rotation_matrix q).
Proof.
  destruct q as [w x y z]. unfold unit_quat, rotation, to_rotation_matrix. vec. cbn [qw qx qy qz]. intros U.
  assert (W : w * w = 1 - x * x - y * y - z * z) by lra.
  repeat split.
  1-6: ring [W].
  ring [W].
Qed.
Lemma rot_act q v : unit_quat q -> act (to_rotation_matrix q) v = rotate q v.
Proof.
  destruct q as [w x y z], v as [a b c]. unfold unit_quat, to_rotation_matrix, rotate, q_mul, conjugate. cbn [qw qx qy qz]. vec. intros U.
  assert (W : w * w = 1 - x * x - y * y - z * z) by lra.
  apply vec_ext; cbn [v0 v1 v2]; ring [W].
Qed.
Lemma norm_mul a b : squared_norm (q_mul a b) = squared_norm a * squared_norm b.
Proof. destruct a, b. unfold squared_norm, q_mul; cbn. ring. Qed.
Lemma mul_assoc a b c : q_mul (q_mul a b) c = q_mul a (q_mul b c).
Proof. destruct a, b, c. apply quat_ext; cbn; ring. Qed.
Lemma unit_mul a b : unit_quat a -> unit_quat b -> unit_quat (q_mul a b).
Proof. intros A B. change (squared_norm (q_mul a b) = 1). rewrite norm_mul. unfold unit_quat in *. unfold squared_norm. rewrite A, B. ring. Qed.
Definition pure (v : vec3) : quat := mkq 0 (v0 v) (v1 v) (v2 v).
Lemma rotate_pure q v : pure (rotate q v) = q_mul (q_mul q (pure v)) (conjugate q).
Proof.
  destruct q as [w x y z], v as [a b c]. unfold pure, rotate. cbn [v0 v1 v2]. apply quat_ext; try reflexivity.
  unfold q_mul, conjugate. cbn [qw qx qy qz]. ring.
Qed.
Lemma conj_mul a b : conjugate (q_mul a b) = q_mul (conjugate b) (conjugate a).
Proof. destruct a as [a b0 c d], b as [a' b' c' d']. apply quat_ext; unfold q_mul, conjugate; cbn [qw qx qy qz]; ring. Qed.
Lemma pure_inj a b : pure a = pure b -> a = b.
Proof. intros H. injection H as A B C. now apply vec_ext. Qed.
Lemma rotate_mul a b v : rotate (q_mul a b) v = rotate a (rotate b v).
Proof. apply pure_inj. rewrite !rotate_pure, conj_mul, !mul_assoc. reflexivity. Qed.
Lemma act_mul a b v : act (mat_mul a b) v = act a (act b v).
Proof. destruct a as [a b0 c d e f g h i], b as [a' b' c' d' e' f' g' h' i'], v as [x y z]. unfold mat_mul. vec. apply vec_ext; cbn; ring. Qed.
Lemma act_inj a b : (forall v, act a v = act b v) -> a = b.
Proof.
  intros H. pose proof (H (mkv 1 0 0)) as H0. pose proof (H (mkv 0 1 0)) as H1. pose proof (H (mkv 0 0 1)) as H2.
  destruct a as [a b0 c d e f g h i], b as [a' b' c' d' e' f' g' h' i']. revert H0 H1 H2. vec. cbn [v0 v1 v2 m00 m01 m02 m10 m11 m12 m20 m21 m22]. intros H0 H1 H2.
  injection H0 as A B C. injection H1 as D E F. injection H2 as G J K. apply mat_ext; cbn; lra.
Qed.
Lemma rot_mul a b : unit_quat a -> unit_quat b ->
  to_rotation_matrix (q_mul a b) = mat_mul (to_rotation_matrix a) (to_rotation_matrix b).
Proof.
  intros A B. apply act_inj. intros v. rewrite act_mul, !rot_act by auto using unit_mul. apply rotate_mul.
Qed.

(** A rotation equals the matrix of its cofactors. *)
Lemma cofactors m : rotation m ->
  m00 m = m11 m * m22 m - m12 m * m21 m /\ m01 m = m12 m * m20 m - m10 m * m22 m /\ m02 m = m10 m * m21 m - m11 m * m20 m /\
  m10 m = m02 m * m21 m - m01 m * m22 m /\ m11 m = m00 m * m22 m - m02 m * m20 m /\ m12 m = m01 m * m20 m - m00 m * m21 m /\
  m20 m = m01 m * m12 m - m02 m * m11 m /\ m21 m = m02 m * m10 m - m00 m * m12 m /\ m22 m = m00 m * m11 m - m01 m * m10 m.
Proof.
  destruct m as [a b c d e f g h i]. unfold rotation. vec. intros (A & B & C & D & E & F & G).
  (* every entry x - cof x is a combination of the equations *)
  assert (K : forall u v w : R, (* (c0 - c1 x c2) . c_j = 0 for each j, and the columns are a basis *)
    u * a + v * d + w * g = 0 -> u * b + v * e + w * h = 0 -> u * c + v * f + w * i = 0 -> u = 0 /\ v = 0 /\ w = 0).
  { intros u v w P Q S. assert (det : a * (e * i - f * h) - b * (d * i - f * g) + c * (d * h - e * g) = 1) by lra.
    repeat split.
    - replace u with (u * (a * (e * i - f * h) - b * (d * i - f * g) + c * (d * h - e * g))) by (rewrite det; ring).
      replace (u * (a * (e * i - f * h) - b * (d * i - f * g) + c * (d * h - e * g)))
        with ((u * a + v * d + w * g) * (e * i - f * h) - (u * b + v * e + w * h) * (d * i - f * g) + (u * c + v * f + w * i) * (d * h - e * g)) by ring.
      rewrite P, Q, S; ring.
    - replace v with (v * (a * (e * i - f * h) - b * (d * i - f * g) + c * (d * h - e * g))) by (rewrite det; ring).
      replace (v * (a * (e * i - f * h) - b * (d * i - f * g) + c * (d * h - e * g)))
        with ((u * a + v * d + w * g) * (c * h - b * i) + (u * b + v * e + w * h) * (a * i - c * g) + (u * c + v * f + w * i) * (b * g - a * h)) by ring.
      rewrite P, Q, S; ring.
    - replace w with (w * (a * (e * i - f * h) - b * (d * i - f * g) + c * (d * h - e * g))) by (rewrite det; ring).
      replace (w * (a * (e * i - f * h) - b * (d * i - f * g) + c * (d * h - e * g)))
        with ((u * a + v * d + w * g) * (b * f - c * e) + (u * b + v * e + w * h) * (c * d - a * f) + (u * c + v * f + w * i) * (a * e - b * d)) by ring.
      rewrite P, Q, S; ring. }
  destruct (K (a - (e * i - f * h)) (d - (c * h - b * i)) (g - (b * f - c * e))) as (K1 & K2 & K3); try lra.
  destruct (K (b - (f * g - d * i)) (e - (a * i - c * g)) (h - (c * d - a * f))) as (K4 & K5 & K6); try lra.
  destruct (K (c - (d * h - e * g)) (f - (b * g - a * h)) (i - (a * e - b * d))) as (K7 & K8 & K9); try lra.
Qed.
Lemma rows m : rotation m ->
  m00 m * m00 m + m01 m * m01 m + m02 m * m02 m = 1 /\ m10 m * m10 m + m11 m * m11 m + m12 m * m12 m = 1 /\
  m20 m * m20 m + m21 m * m21 m + m22 m * m22 m = 1 /\ m00 m * m10 m + m01 m * m11 m + m02 m * m12 m = 0 /\
  m00 m * m20 m + m01 m * m21 m + m02 m * m22 m = 0 /\ m10 m * m20 m + m11 m * m21 m + m12 m * m22 m = 0.
Proof.
  intros H. destruct (cofactors m H) as (A1 & A2 & A3 & A4 & A5 & A6 & A7 & A8 & A9). destruct H as (_ & _ & _ & _ & _ & _ & G).
  revert G A1 A2 A3 A4 A5 A6 A7 A8 A9. destruct m as [a b c d e f g h i]. vec. intros G A1 A2 A3 A4 A5 A6 A7 A8 A9.
  repeat split.
  - transitivity (a * (e * i - f * h) + b * (f * g - d * i) + c * (d * h - e * g)); [now rewrite <- A1, <- A2, <- A3|lra].
  - transitivity (d * (c * h - b * i) + e * (a * i - c * g) + f * (b * g - a * h)); [now rewrite <- A4, <- A5, <- A6|lra].
  - transitivity (g * (b * f - c * e) + h * (c * d - a * f) + i * (a * e - b * d)); [now rewrite <- A7, <- A8, <- A9|lra].
  - transitivity ((e * i - f * h) * d + (f * g - d * i) * e + (d * h - e * g) * f); [now rewrite <- A1, <- A2, <- A3|ring].
  - transitivity ((e * i - f * h) * g + (f * g - d * i) * h + (d * h - e * g) * i); [now rewrite <- A1, <- A2, <- A3|ring].
  - transitivity ((c * h - b * i) * g + (a * i - c * g) * h + (b * g - a * h) * i); [now rewrite <- A4, <- A5, <- A6|ring].
Qed.

(** Sheppard's method. *)
Lemma sqrt_two t : 0 < t -> sqrt t * sqrt t = t /\ sqrt t <> 0.
Proof. intros H. split; [apply sqrt_sqrt; lra|]. apply Rgt_not_eq, sqrt_lt_R0, H. Qed.

Lemma from_rot m : rotation m -> unit_quat (from_rotation_matrix m) /\ to_rotation_matrix (from_rotation_matrix m) = m.
Proof.
  intros H. pose proof (cofactors m H) as (A1 & A2 & A3 & A4 & A5 & A6 & A7 & A8 & A9).
  pose proof (rows m H) as (B1 & B2 & B3 & B4 & B5 & B6). destruct H as (C1 & C2 & C3 & C4 & C5 & C6 & G).
  revert C1 C2 C3 C4 C5 C6 G A1 A2 A3 A4 A5 A6 A7 A8 A9 B1 B2 B3 B4 B5 B6. destruct m as [a b c d e f g h i]. vec.
  intros C1 C2 C3 C4 C5 C6 G A1 A2 A3 A4 A5 A6 A7 A8 A9 B1 B2 B3 B4 B5 B6.
  assert (sol : forall w x y z, w * w = (1 + a + e + i) / 4 -> x * x = (1 + a - e - i) / 4 -> y * y = (1 - a + e - i) / 4 ->
    z * z = (1 - a - e + i) / 4 -> w * x = (h - f) / 4 -> w * y = (c - g) / 4 -> w * z = (d - b) / 4 -> x * y = (b + d) / 4 ->
    x * z = (g + c) / 4 -> y * z = (f + h) / 4 ->
    unit_quat (mkq w x y z) /\ to_rotation_matrix (mkq w x y z) = mkm a b c d e f g h i).
  { intros w x y z Q1 Q2 Q3 Q4 Q5 Q6 Q7 Q8 Q9 Q10. split; [unfold unit_quat; cbn; lra|].
    unfold to_rotation_matrix. cbn [qw qx qy qz]. apply mat_ext; cbn; lra. }
  unfold from_rotation_matrix. cbn [m00 m01 m02 m10 m11 m12 m20 m21 m22].
  assert (prod : forall t s p q r, s * s = t -> s <> 0 -> p * q = t * r -> p / (s * 2) * (q / (s * 2)) = r / 4).
  { intros t s p q r S N P. replace (p / (s * 2) * (q / (s * 2))) with (p * q / (4 * (s * s))) by (field; exact N). rewrite P, S. field.
    rewrite <- S. now apply Rmult_integral_contrapositive_currified. }
  assert (half : forall t s p, s * s = t -> s <> 0 -> s / 2 * (p / (s * 2)) = p / 4) by (intros; field; auto).
  assert (half' : forall t s p, s * s = t -> s <> 0 -> p / (s * 2) * (s / 2) = p / 4) by (intros; field; auto).
  assert (quart : forall t s, s * s = t -> s / 2 * (s / 2) = t / 4) by (intros t s <-; field).
  destruct (Rlt_dec 0 (a + e + i)) as [T|T].
  { destruct (sqrt_two (1 + a + e + i)) as [S N]; [lra|]. set (t := sqrt (1 + a + e + i)) in *. clearbody t.
    apply sol; eauto using half, half', quart; first [(eapply prod; [exact S|exact N|]); lra | rewrite (half' _ _ _ S N); lra | rewrite (half _ _ _ S N); lra]. }
  destruct (Rlt_dec a e) as [L|L]; [destruct (Rlt_dec e i) as [M|M]|destruct (Rlt_dec a i) as [M|M]].
  1,3: destruct (sqrt_two (1 - a - e + i)) as [S N]; [lra|]; set (t := sqrt (1 - a - e + i)) in *; clearbody t;
     apply sol; eauto using half, half', quart; first [(eapply prod; [exact S|exact N|]); lra | rewrite (half' _ _ _ S N); lra | rewrite (half _ _ _ S N); lra].
  - destruct (sqrt_two (1 - a + e - i)) as [S N]; [lra|]; set (t := sqrt (1 - a + e - i)) in *; clearbody t;
     apply sol; eauto using half, half', quart; first [(eapply prod; [exact S|exact N|]); lra | rewrite (half' _ _ _ S N); lra | rewrite (half _ _ _ S N); lra].
  - destruct (sqrt_two (1 + a - e - i)) as [S N]; [lra|]; set (t := sqrt (1 + a - e - i)) in *; clearbody t;
     apply sol; eauto using half, half', quart; first [(eapply prod; [exact S|exact N|]); lra | rewrite (half' _ _ _ S N); lra | rewrite (half _ _ _ S N); lra].
Qed.

(** Angles. *)
Ltac q := cbn [v0 v1 v2 qw qx qy qz].
Lemma sc x : sin x * sin x + cos x * cos x = 1.
Proof. pose proof (sin2_cos2 x) as H. unfold Rsqr in H. exact H. Qed.
Lemma angle_axis_unit t a b c : unit_vec (mkv a b c) -> unit_quat (from_angle_axis t a b c).
Proof.
  unfold unit_vec, unit_quat, from_angle_axis. vec. q. intros U. pose proof (sc (t / 2)) as S.
  replace (cos (t / 2) * cos (t / 2) + a * sin (t / 2) * (a * sin (t / 2)) + b * sin (t / 2) * (b * sin (t / 2)) + c * sin (t / 2) * (c * sin (t / 2)))
    with (cos (t / 2) * cos (t / 2) + (a * a + b * b + c * c) * (sin (t / 2) * sin (t / 2))) by ring.
  rewrite U. lra.
Qed.
Lemma angle_axis_turn t a b c v : unit_vec (mkv a b c) -> act (to_rotation_matrix (from_angle_axis t a b c)) v = turn t (mkv a b c) v.
Proof.
  intros U. unfold turn, to_rotation_matrix, from_angle_axis. revert U. unfold unit_vec. destruct v as [x y z]. vec. q. intros U.
  replace (cos t) with (cos (2 * (t / 2))) by (f_equal; field). replace (sin t) with (sin (2 * (t / 2))) by (f_equal; field).
  rewrite cos_2a_sin, sin_2a. pose proof (sc (t / 2)) as S. set (s := sin (t / 2)) in *. set (k := cos (t / 2)) in *. clearbody s k.
  assert (C : c * c = 1 - a * a - b * b) by lra.
  apply vec_ext; q; ring [C].
Qed.

Definition vlen (a b c : R) : R := sqrt (a * a + b * b + c * c).
Lemma vlen_sq a b c : vlen a b c * vlen a b c = a * a + b * b + c * c.
Proof. apply sqrt_sqrt. nra. Qed.
Lemma vlen_pos a b c : 0 <= vlen a b c.
Proof. apply sqrt_pos. Qed.
Lemma vlen_scale k a b c : 0 <= k -> vlen (k * a) (k * b) (k * c) = k * vlen a b c.
Proof.
  intros K. unfold vlen. replace (k * a * (k * a) + k * b * (k * b) + k * c * (k * c)) with ((k * k) * (a * a + b * b + c * c)) by ring.
  rewrite sqrt_mult by nra. now rewrite sqrt_square.
Qed.
Lemma unit_axis a b c : vlen a b c <> 0 -> unit_vec (mkv (a / vlen a b c) (b / vlen a b c) (c / vlen a b c)).
Proof.
  intros N. unfold unit_vec. vec. pose proof (vlen_sq a b c) as S. set (n := vlen a b c) in *. clearbody n.
  replace (a / n * (a / n) + b / n * (b / n) + c / n * (c / n)) with ((a * a + b * b + c * c) / (n * n)) by (field; auto). rewrite <- S. field. auto.
Qed.
Lemma rotvec_axis a b c : vlen a b c <> 0 ->
  from_rotation_vector a b c None = from_angle_axis (vlen a b c) (a / vlen a b c) (b / vlen a b c) (c / vlen a b c).
Proof. intros N. unfold from_rotation_vector, from_angle_axis. fold (vlen a b c). apply quat_ext; q; try field; auto. Qed.
Lemma rotvec_eps a b c e : e < vlen a b c -> from_rotation_vector a b c (Some e) = from_rotation_vector a b c None.
Proof. intros H. unfold from_rotation_vector. fold (vlen a b c). destruct (Rlt_dec e (vlen a b c)); [reflexivity|contradiction]. Qed.
Lemma normalized_unit p : squared_norm p <> 0 -> unit_quat (normalized p).
Proof.
  intros N. unfold unit_quat, normalized, norm. q. assert (P : 0 <= squared_norm p) by (unfold squared_norm; nra).
  destruct (sqrt_two (squared_norm p)) as [S M]; [lra|]. set (n := sqrt (squared_norm p)) in *. clearbody n.
  replace (qw p / n * (qw p / n) + qx p / n * (qx p / n) + qy p / n * (qy p / n) + qz p / n * (qz p / n))
    with (squared_norm p / (n * n)) by (unfold squared_norm; field; auto). rewrite S. field. auto.
Qed.
Lemma rotvec_unit a b c e : 0 <= e -> unit_quat (from_rotation_vector a b c (Some e)).
Proof.
  intros E. destruct (Rlt_dec e (vlen a b c)) as [L|L].
  - rewrite rotvec_eps by auto. rewrite rotvec_axis by lra. apply angle_axis_unit, unit_axis. lra.
  - unfold from_rotation_vector. fold (vlen a b c). destruct (Rlt_dec e (vlen a b c)); [contradiction|]. apply normalized_unit.
    unfold squared_norm. q. nra.
Qed.

Lemma atan2_unit n c : 0 < n -> 0 <= c -> n * n + c * c = 1 ->
  cos (atan2_R n c) = c /\ sin (atan2_R n c) = n /\ 0 < atan2_R n c <= PI / 2.
Proof.
  intros N C U. unfold atan2_R. pose proof PI_RGT_0. destruct (Rlt_dec 0 c) as [P|P].
  - assert (S : sqrt (1 + (n / c)²) = / c).
    { replace (1 + (n / c)²) with ((/ c) * (/ c)). { apply sqrt_square. left. now apply Rinv_0_lt_compat. }
      unfold Rsqr. replace (/ c * / c) with ((n * n + c * c) / (c * c)) by (rewrite U; field; lra). field. lra. }
    rewrite cos_atan, sin_atan, S. repeat split.
    + field. lra.
    + field. lra.
    + rewrite <- atan_0. apply atan_increasing. apply Rdiv_lt_0_compat; lra.
    + left. apply atan_bound.
  - destruct (Rlt_dec c 0); [lra|]. destruct (Rlt_dec 0 n); [|contradiction]. assert (c = 0) by lra. subst.
    rewrite cos_PI2, sin_PI2. repeat split; try lra. assert ((n - 1) * (n + 1) = 0) by lra. assert (n - 1 = 0 \/ n + 1 = 0) by (now apply Rmult_integral). lra.
Qed.

Definition sgn (w : R) : R := if Rlt_dec w 0 then -1 else 1.
Lemma sgn_abs w : w * sgn w = Rabs w.
Proof. unfold sgn, Rabs. destruct (Rlt_dec w 0), (Rcase_abs w); lra. Qed.
Lemma sgn_cases w : sgn w = 1 \/ sgn w = -1.
Proof. unfold sgn. destruct (Rlt_dec w 0); auto. Qed.
Definition scaled (k : R) (q : quat) : quat := mkq (qw q * k) (qx q * k) (qy q * k) (qz q * k).
Lemma scaled_cases p : scaled (sgn (qw p)) p = p \/ scaled (sgn (qw p)) p = q_neg p.
Proof.
  unfold scaled, q_neg. destruct (sgn_cases (qw p)) as [-> | ->]; [left|right]; apply quat_ext; q; lra.
Qed.

Definition vnorm (p : quat) : R := vlen (qx p) (qy p) (qz p).
Lemma vnorm_unit p : unit_quat p -> vnorm p * vnorm p + Rabs (qw p) * Rabs (qw p) = 1.
Proof.
  intros U. unfold vnorm. rewrite vlen_sq. replace (Rabs (qw p) * Rabs (qw p)) with (qw p * qw p); [unfold unit_quat in U; lra|].
  rewrite <- sgn_abs. destruct (sgn_cases (qw p)) as [-> | ->]; ring.
Qed.

Lemma angle_axis_back p : unit_quat p -> vnorm p <> 0 ->
  let r := to_angle_axis false p None in
  0 < fst r <= PI /\ unit_vec (snd r) /\ from_angle_axis (fst r) (v0 (snd r)) (v1 (snd r)) (v2 (snd r)) = scaled (sgn (qw p)) p.
Proof.
  intros U N. pose proof (vlen_pos (qx p) (qy p) (qz p)) as P. fold (vnorm p) in P.
  destruct (atan2_unit (vnorm p) (Rabs (qw p))) as (C & S & B); [lra|apply Rabs_pos|now apply vnorm_unit|].
  unfold to_angle_axis. cbn [fst snd]. q. fold (vlen (qx p) (qy p) (qz p)). fold (vnorm p). split; [lra|].
  set (f := if Rlt_dec (qw p) 0 then - vnorm p else vnorm p).
  assert (F : f = sgn (qw p) * vnorm p) by (unfold f, sgn; destruct (Rlt_dec (qw p) 0); ring).
  assert (FN : f <> 0) by (unfold f; destruct (Rlt_dec (qw p) 0); lra). split.
  - unfold unit_vec. vec. pose proof (vlen_sq (qx p) (qy p) (qz p)) as Q. fold (vnorm p) in Q.
    replace (qx p / f * (qx p / f) + qy p / f * (qy p / f) + qz p / f * (qz p / f)) with ((qx p * qx p + qy p * qy p + qz p * qz p) / (f * f)) by (field; auto).
    rewrite <- Q. replace (f * f) with (vnorm p * vnorm p) by (rewrite F; destruct (sgn_cases (qw p)) as [-> | ->]; ring). field. auto.
  - unfold from_angle_axis. replace (atan2_R (vnorm p) (Rabs (qw p)) * 2 / 2) with (atan2_R (vnorm p) (Rabs (qw p))) by field.
    rewrite C, S. assert (K : vnorm p / f = sgn (qw p)).
    { rewrite F. destruct (sgn_cases (qw p)) as [-> | ->]; field; auto. }
    apply quat_ext; q; unfold scaled; q; [symmetry; apply sgn_abs|..]; rewrite <- K; field; auto.
Qed.
Lemma angle_axis_eps p e : e < vnorm p -> to_angle_axis false p (Some e) = to_angle_axis false p None.
Proof. intros H. unfold to_angle_axis. fold (vlen (qx p) (qy p) (qz p)). fold (vnorm p). now destruct (Rlt_dec e (vnorm p)). Qed.

(** The rotation vector is the axis times the angle, with either formula. *)
Lemma rotvec_of p b : unit_quat p -> vnorm p <> 0 ->
  let r := to_angle_axis false p None in to_rotation_vector p None b = times (fst r) (snd r).
Proof.
  intros U N. pose proof (vlen_pos (qx p) (qy p) (qz p)) as P. fold (vnorm p) in P.
  assert (K : forall x t, x * (t * 2 / vnorm p) * sgn (qw p) = t * 2 * (x / (if Rlt_dec (qw p) 0 then - vnorm p else vnorm p))).
  { intros x t. unfold sgn. destruct (Rlt_dec (qw p) 0); field; auto. }
  assert (UU := vnorm_unit p U).
  cbn zeta. unfold to_rotation_vector, to_angle_axis. cbn [fst snd]. vec. fold (vlen (qx p) (qy p) (qz p)). fold (vnorm p). fold (sgn (qw p)).
  destruct b.
  - apply vec_ext; q; apply K.
  - rewrite sgn_abs. rewrite Rmin_left by (assert (0 <= Rabs (qw p)) by apply Rabs_pos; nra).
    destruct (atan2_unit (vnorm p) (Rabs (qw p))) as (C & S & B); [lra|apply Rabs_pos|now apply vnorm_unit|].
    assert (A : acos (Rabs (qw p)) = atan2_R (vnorm p) (Rabs (qw p))).
    { rewrite <- C at 1. apply acos_cos. pose proof PI_RGT_0. lra. }
    rewrite A. replace (sqrt (1 - Rabs (qw p) * Rabs (qw p))) with (vnorm p).
    2: { replace (1 - Rabs (qw p) * Rabs (qw p)) with (vnorm p * vnorm p) by lra. now rewrite sqrt_square. }
    apply vec_ext; q; rewrite <- K; field; auto.
Qed.
Lemma rotvec_of_eps p b e : unit_quat p -> e < vnorm p -> to_rotation_vector p (Some e) b = to_rotation_vector p None b.
Proof.
  intros U H. pose proof (vlen_pos (qx p) (qy p) (qz p)) as P. fold (vnorm p) in P. pose proof (vnorm_unit p U) as UU.
  unfold to_rotation_vector. destruct b.
  - fold (vlen (qx p) (qy p) (qz p)). fold (vnorm p). destruct (Rlt_dec e (vnorm p)); [|contradiction]. apply vec_ext; q; ring.
  - fold (sgn (qw p)). rewrite sgn_abs. rewrite Rmin_left by (assert (0 <= Rabs (qw p)) by apply Rabs_pos; nra).
    replace (sqrt (1 - Rabs (qw p) * Rabs (qw p))) with (vnorm p).
    2: { replace (1 - Rabs (qw p) * Rabs (qw p)) with (vnorm p * vnorm p) by lra. now rewrite sqrt_square. }
    now destruct (Rlt_dec e (vnorm p)).
Qed.
Lemma rotvec_round p b : unit_quat p -> let v := to_rotation_vector p (Some 0) b in
  vlen (v0 v) (v1 v) (v2 v) <= PI /\ from_rotation_vector (v0 v) (v1 v) (v2 v) (Some 0) = scaled (sgn (qw p)) p.
Proof.
  intros U. pose proof PI_RGT_0 as PP. pose proof (vlen_pos (qx p) (qy p) (qz p)) as P. fold (vnorm p) in P. cbn zeta. destruct (Req_dec (vnorm p) 0) as [Z|N].
  - assert (Q := vlen_sq (qx p) (qy p) (qz p)). fold (vnorm p) in Q. rewrite Z in Q.
    assert (X : qx p = 0 /\ qy p = 0 /\ qz p = 0) by (repeat split; nra). destruct X as (X & Y & W).
    assert (E : to_rotation_vector p (Some 0) b = mkv 0 0 0).
    { unfold to_rotation_vector. rewrite X, Y, W. destruct b; apply vec_ext; q; ring. }
    rewrite E. q. assert (L : vlen 0 0 0 = 0). { unfold vlen. replace (0 * 0 + 0 * 0 + 0 * 0) with 0 by ring. apply sqrt_0. }
    rewrite L. split; [lra|]. unfold from_rotation_vector. fold (vlen 0 0 0). rewrite L. destruct (Rlt_dec 0 0); [lra|].
    unfold normalized, norm, squared_norm. q. replace (1 * 1 + 0 / 2 * (0 / 2) + 0 / 2 * (0 / 2) + 0 / 2 * (0 / 2)) with 1 by field. rewrite sqrt_1.
    unfold unit_quat in U. rewrite X, Y, W in U. unfold scaled. rewrite X, Y, W. apply quat_ext; q; try field.
    unfold sgn. destruct (Rlt_dec (qw p) 0); nra.
  - rewrite rotvec_of_eps by (auto; lra). rewrite rotvec_of by auto. destruct (angle_axis_back p U N) as (A & B & C).
    set (r := to_angle_axis false p None) in *. destruct r as [t [a c d]]. cbn [fst snd] in *. unfold times. q.
    assert (L : vlen a c d = 1).
    { unfold vlen. unfold unit_vec in B. revert B. vec. intros ->. apply sqrt_1. }
    assert (LL : vlen (t * a) (t * c) (t * d) = t) by (rewrite vlen_scale by lra; rewrite L; ring).
    rewrite LL. split; [lra|]. rewrite rotvec_eps by (rewrite LL; lra). rewrite rotvec_axis by (rewrite LL; lra). rewrite LL. revert C. q. intros <-.
    f_equal; field; lra.
Qed.
