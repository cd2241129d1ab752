(** Proofs about the left jacobian of the rotation group. *)
From Coq Require Import List ZArith Reals Bool Lra Lia Psatz.
From Verif Require Import Outcome ExprSpec QuatModel QuatSpec QuatProofs CalcProofs.
Import ListNotations.
Open Scope R_scope.

Definition series (w : vec3) (c d : R) : mat3 :=
  mat_add (mat_add mat_one (mat_scale (skew w) c)) (mat_scale (mat_mul (skew w) (skew w)) d).
Ltac m := cbn [v0 v1 v2 m00 m01 m02 m10 m11 m12 m20 m21 m22].
Lemma skew2 x y z : mat_mul (skew (mkv x y z)) (skew (mkv x y z)) =
  mkm (- z * z - y * y) (x * y) (x * z) (x * y) (- z * z - x * x) (y * z) (x * z) (y * z) (- y * y - x * x).
Proof. unfold mat_mul, skew. m. apply mat_ext; m; ring. Qed.
Lemma series_eq x y z c d : series (mkv x y z) c d =
  mkm (1 + (- z * z - y * y) * d) (- z * c + x * y * d) (y * c + x * z * d)
      (z * c + x * y * d) (1 + (- z * z - x * x) * d) (- x * c + y * z * d)
      (- y * c + x * z * d) (x * c + y * z * d) (1 + (- y * y - x * x) * d).
Proof. unfold series. rewrite skew2. unfold mat_add, mat_scale, mat_one, skew. m. apply mat_ext; m; ring. Qed.
Lemma series_mul w c d c' d' : mat_mul (series w c d) (series w c' d') =
  series w (c + c' - dot w w * (c * d' + d * c')) (d + d' + c * c' - dot w w * (d * d')).
Proof. destruct w as [x y z]. rewrite !series_eq. unfold mat_mul, dot. m. apply mat_ext; m; ring. Qed.
Lemma series_one w : series w 0 0 = mat_one.
Proof. destruct w as [x y z]. rewrite series_eq. unfold mat_one. apply mat_ext; m; ring. Qed.
Lemma jac_inverse w : length w <> 0 -> sin (length w) <> 0 ->
  mat_mul (inverse_left_jacobian_of_so3 w None) (left_jacobian_of_so3 w None) = mat_one /\
  mat_mul (left_jacobian_of_so3 w None) (inverse_left_jacobian_of_so3 w None) = mat_one.
Proof.
  intros N S. unfold inverse_left_jacobian_of_so3, left_jacobian_of_so3. fold (dot w w). fold (length w).
  assert (D : dot w w = length w * length w) by (symmetry; apply sqrt_sqrt; unfold dot; nra).
  pose proof (sc (length w)) as T. set (a := length w) in *.
  fold (series w (-1 / 2) (1 / a ^ 2 - (1 + cos a) / (2 * a * sin a))).
  fold (series w ((1 - cos a) / a ^ 2) ((a - sin a) / a ^ 3)).
  rewrite !series_mul, D. clearbody a. set (s := sin a) in *. set (c := cos a) in *. clearbody s c.
  assert (E1 : (1 - c) * (1 + c) = s * s) by lra.
  assert (F : (1 - c) / a ^ 2 * ((1 + c) / (2 * a * s)) = s / (2 * a * (a * a))).
  { replace ((1 - c) / a ^ 2 * ((1 + c) / (2 * a * s))) with ((1 - c) * (1 + c) / (2 * a * s * a ^ 2)) by (field; auto). rewrite E1. field. auto. }
  assert (G : -1 / 2 + (1 - c) / a ^ 2 - a * a * (-1 / 2 * ((a - s) / a ^ 3) + (1 / a ^ 2 - (1 + c) / (2 * a * s)) * ((1 - c) / a ^ 2)) = 0).
  { replace (-1 / 2 + (1 - c) / a ^ 2 - a * a * (-1 / 2 * ((a - s) / a ^ 3) + (1 / a ^ 2 - (1 + c) / (2 * a * s)) * ((1 - c) / a ^ 2)))
      with (-1 / 2 + (a - s) / (2 * a) + a * a * ((1 - c) / a ^ 2 * ((1 + c) / (2 * a * s)))) by (field; auto). rewrite F. field. auto. }
  assert (Hc : (1 + c) / s * (1 - c) = s) by (replace ((1 + c) / s * (1 - c)) with ((1 - c) * (1 + c) / s) by (field; auto); rewrite E1; field; auto).
  assert (H : 1 / a ^ 2 - (1 + c) / (2 * a * s) + (a - s) / a ^ 3 + -1 / 2 * ((1 - c) / a ^ 2) - a * a * ((1 / a ^ 2 - (1 + c) / (2 * a * s)) * ((a - s) / a ^ 3)) = 0).
  { replace (1 / a ^ 2 - (1 + c) / (2 * a * s) + (a - s) / a ^ 3 + -1 / 2 * ((1 - c) / a ^ 2) - a * a * ((1 / a ^ 2 - (1 + c) / (2 * a * s)) * ((a - s) / a ^ 3)))
      with (0) by (field; auto). reflexivity. }
  split.
  - rewrite G, H. apply series_one.
  - replace ((1 - c) / a ^ 2 + -1 / 2 - a * a * ((1 - c) / a ^ 2 * (1 / a ^ 2 - (1 + c) / (2 * a * s)) + (a - s) / a ^ 3 * (-1 / 2))) with 0
      by (rewrite <- G; ring).
    replace ((a - s) / a ^ 3 + (1 / a ^ 2 - (1 + c) / (2 * a * s)) + (1 - c) / a ^ 2 * (-1 / 2) - a * a * ((a - s) / a ^ 3 * (1 / a ^ 2 - (1 + c) / (2 * a * s)))) with 0
      by (rewrite <- H; ring).
    apply series_one.
Qed.
Lemma jac_eps w e : e < length w -> left_jacobian_of_so3 w (Some e) = left_jacobian_of_so3 w None /\
  inverse_left_jacobian_of_so3 w (Some e) = inverse_left_jacobian_of_so3 w None.
Proof.
  intros H. unfold left_jacobian_of_so3, inverse_left_jacobian_of_so3. fold (dot w w). fold (length w). now destruct (Rlt_dec e (length w)).
Qed.

(** The integral of the rotations along the way. *)
Definition upto (w : vec3) (v : vec3) (t : R) : vec3 := times t (act (left_jacobian_of_so3 (times t w) (Some 0)) v).
Lemma length_times t w : length (times t w) = Rabs t * length w.
Proof.
  unfold length. replace (dot (times t w) (times t w)) with ((t * t) * dot w w) by (vec; ring).
  rewrite sqrt_mult; [|nra|unfold dot; nra]. f_equal. apply sqrt_Rsqr_abs.
Qed.
Lemma series_act w c d v : act (series w c d) v = plus v (plus (times c (cross w v)) (times d (cross w (cross w v)))).
Proof. destruct w as [x y z], v as [p q r]. rewrite series_eq. vec. apply vec_ext; m; ring. Qed.
Lemma upto_closed w v t : length w <> 0 -> upto w v t =
  let a := length w in let k := times (/ a) w in
  plus (times t v) (plus (times ((1 - cos (t * a)) / a) (cross k v)) (times ((t * a - sin (t * a)) / a) (cross k (cross k v)))).
Proof.
  intros N. assert (P : 0 < length w) by (pose proof (sqrt_pos (dot w w)); unfold length in *; lra).
  unfold upto, left_jacobian_of_so3. fold (dot (times t w) (times t w)). fold (length (times t w)). rewrite length_times.
  set (a := length w) in *. clearbody a. cbn zeta.
  destruct (Rlt_dec 0 (Rabs t * a)) as [L|L].
  - assert (T : t <> 0). { intros ->. rewrite Rabs_R0 in L. lra. }
    fold (series (times t w) ((1 - cos (Rabs t * a)) / (Rabs t * a) ^ 2) ((Rabs t * a - sin (Rabs t * a)) / (Rabs t * a) ^ 3)). rewrite series_act.
    assert (C : (1 - cos (Rabs t * a)) / (Rabs t * a) ^ 2 = (1 - cos (t * a)) / (t * a) ^ 2).
    { unfold Rabs. destruct (Rcase_abs t); [|reflexivity]. replace (- t * a) with (- (t * a)) by ring. rewrite cos_neg. field. split; auto; lra. }
    assert (D : (Rabs t * a - sin (Rabs t * a)) / (Rabs t * a) ^ 3 = (t * a - sin (t * a)) / (t * a) ^ 3).
    { unfold Rabs. destruct (Rcase_abs t); [|reflexivity]. replace (- t * a) with (- (t * a)) by ring. rewrite sin_neg. field. split; auto; lra. }
    rewrite C, D. destruct w as [x y z], v as [p q r]. vec. apply vec_ext; m; field; auto.
  - assert (t = 0) as ->.
    { pose proof (Rabs_pos t) as Q. assert (Z : Rabs t = 0) by nra. destruct (Req_dec t 0) as [|E]; auto. apply Rabs_no_R0 in E. contradiction. }
    fold (series (times 0 w) (1 / 2) (1 / 6)). rewrite series_act. replace (0 * a) with 0 by ring. rewrite cos_0, sin_0.
    destruct w as [x y z], v as [p q r]. vec. apply vec_ext; m; field; lra.
Qed.

Lemma curve_deriv a A B C t : a <> 0 ->
  derivable_pt_lim (fun t => t * A + ((1 - cos (t * a)) / a * B + (t * a - sin (t * a)) / a * C)) t (A + (sin (t * a) * B + (1 - cos (t * a)) * C)).
Proof.
  intros N.
  assert (L : derivable_pt_lim (fun u => u * a) t a).
  { apply dlim_ext with (mult_real_fct a id); [intros; unfold mult_real_fct, id; ring|].
    replace a with (a * 1) at 2 by ring. apply derivable_pt_lim_scal, derivable_pt_lim_id. }
  assert (Cs : derivable_pt_lim (fun u => cos (u * a)) t (- sin (t * a) * a)) by (apply (derivable_pt_lim_comp (fun u => u * a) cos); [exact L|apply derivable_pt_lim_cos]).
  assert (Sn : derivable_pt_lim (fun u => sin (u * a)) t (cos (t * a) * a)) by (apply (derivable_pt_lim_comp (fun u => u * a) sin); [exact L|apply derivable_pt_lim_sin]).
  assert (lin : forall f l k, derivable_pt_lim f t l -> derivable_pt_lim (fun u => k * f u) t (k * l)) by (intros; now apply (derivable_pt_lim_scal f)).
  apply dlim_ext with (fun u => (A * u + C * u) + (B / a + (- (B / a) * cos (u * a) + - (C / a) * sin (u * a)))).
  { intros u. field. auto. }
  replace (A + (sin (t * a) * B + (1 - cos (t * a)) * C)) with ((A * 1 + C * 1) + (0 + (- (B / a) * (- sin (t * a) * a) + - (C / a) * (cos (t * a) * a)))) by (field; auto).
  apply (derivable_pt_lim_plus (fun u => A * u + C * u)).
  - apply (derivable_pt_lim_plus (fun u => A * u)); apply lin, derivable_pt_lim_id.
  - apply (derivable_pt_lim_plus (fun u => B / a)); [apply derivable_pt_lim_const|].
    apply (derivable_pt_lim_plus (fun u => - (B / a) * cos (u * a))); apply lin; assumption.
Qed.

Lemma upto_deriv w v t : forall p, p = v0 \/ p = v1 \/ p = v2 ->
  derivable_pt_lim (fun u => p (upto w v u)) t (p (turn (t * length w) (times (/ length w) w) v)).
Proof.
  intros p Hp. destruct (Req_dec (length w) 0) as [Z|N].
  - assert (D : dot w w = 0). { unfold length in Z. apply sqrt_eq_0; auto. unfold dot; nra. }
    assert (W : w = mkv 0 0 0). { destruct w as [x y z]. revert D. vec. intros D. assert (x = 0 /\ y = 0 /\ z = 0) as (-> & -> & ->) by (repeat split; nra). reflexivity. }
    subst w. rewrite Z. replace (t * 0) with 0 by ring.
    assert (U : forall u, upto (mkv 0 0 0) v u = times u v).
    { intros u. unfold upto, left_jacobian_of_so3. destruct v as [x y z].
      match goal with |- times u (act (mat_add (mat_add mat_one (mat_scale (skew ?w) ?c)) (mat_scale _ ?d)) _) = _ => fold (series w c d) end.
      rewrite series_act. vec. apply vec_ext; m; ring. }
    apply dlim_ext with (fun u => u * p v). { intros u. rewrite U. destruct Hp as [-> |[-> | ->]]; reflexivity. }
    replace (p (turn 0 (times (/ 0) (mkv 0 0 0)) v)) with (1 * p v).
    { apply dlim_ext with (mult_real_fct (p v) id); [intros; unfold mult_real_fct, id; ring|].
      replace (1 * p v) with (p v * 1) by ring. apply derivable_pt_lim_scal, derivable_pt_lim_id. }
    unfold turn. rewrite cos_0, sin_0. destruct v as [x y z]. vec. destruct Hp as [-> |[-> | ->]]; m; ring.
  - pose proof (upto_closed w v) as U. cbn zeta in U. set (a := length w) in *.
    assert (UK : dot (times (/ a) w) (times (/ a) w) = 1).
    { replace (dot (times (/ a) w) (times (/ a) w)) with (dot w w / (a * a)) by (vec; field; auto).
      unfold a at 1 2. unfold length. rewrite sqrt_sqrt by (unfold dot; nra). apply Rinv_r. intros E. apply N. unfold a, length. rewrite E. apply sqrt_0. }
    set (k := times (/ a) w) in *. clearbody k a.
    apply dlim_ext with (fun u => u * p v + ((1 - cos (u * a)) / a * p (cross k v) + (u * a - sin (u * a)) / a * p (cross k (cross k v)))).
    { intros u. rewrite U by auto. destruct Hp as [-> |[-> | ->]]; reflexivity. }
    replace (p (turn (t * a) k v)) with (p v + (sin (t * a) * p (cross k v) + (1 - cos (t * a)) * p (cross k (cross k v)))).
    { now apply curve_deriv. }
    unfold turn. destruct k as [x y z], v as [b c d]. revert UK. vec. intros UK.
    assert (Z : z * z = 1 - x * x - y * y) by lra.
    destruct Hp as [-> |[-> | ->]]; m; ring [Z].
Qed.
