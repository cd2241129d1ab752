(** Rules of calculus for partial real functions. *)
From Coq Require Import List ZArith Reals Bool Lra Lia Ratan.
From Verif Require Import ExprModel ExprSpec ValProofs DerivSpec.
Import ListNotations.
Open Scope R_scope.

Lemma dlim_ext_loc f g x y : (exists d, 0 < d /\ forall t, Rabs (t - x) < d -> f t = g t) ->
  derivable_pt_lim f x y -> derivable_pt_lim g x y.
Proof.
  intros (d & Hd & E) H eps He. destruct (H eps He) as [d' H'].
  assert (Hm : 0 < Rmin d d') by (apply Rmin_glb_lt; [auto|apply cond_pos]).
  exists (mkposreal _ Hm). intros h Hh Hlt. cbn in Hlt.
  assert (L1 : Rabs h < d) by (eapply Rlt_le_trans; [exact Hlt|apply Rmin_l]).
  assert (L2 : Rabs h < d') by (eapply Rlt_le_trans; [exact Hlt|apply Rmin_r]).
  rewrite <- (E (x + h)), <- (E x).
  - apply H'; auto.
  - replace (x - x) with 0 by ring. now rewrite Rabs_R0.
  - now replace (x + h - x) with h by ring.
Qed.
Lemma dlim_ext f g x y : (forall t, f t = g t) -> derivable_pt_lim f x y -> derivable_pt_lim g x y.
Proof. intros E. apply dlim_ext_loc. exists 1. split; [lra|auto]. Qed.

Lemma dlim_cont f x y : derivable_pt_lim f x y -> forall e, 0 < e -> exists d, 0 < d /\ forall t, Rabs (t - x) < d -> Rabs (f t - f x) < e.
Proof.
  intros H e He. assert (C : continuity_pt f x).
  { apply derivable_continuous_pt. exists y. exact H. }
  destruct (C e He) as (d & Hd & HC). exists d. split; auto. intros t Ht.
  destruct (Req_dec t x) as [->|Hn]; [replace (f x - f x) with 0 by ring; rewrite Rabs_R0; auto|].
  apply (HC t). split; [split; [exact Logic.I|auto]|exact Ht].
Qed.

(** ** Partial functions *)
Lemma hd_at G x0 y : has_deriv G x0 y -> exists x, G x0 = Rv x.
Proof. intros (F & d & Hd & E & _). exists (F x0). apply E. replace (x0 - x0) with 0 by ring. now rewrite Rabs_R0. Qed.

Lemma hd_unique G x0 y y' : has_deriv G x0 y -> has_deriv G x0 y' -> y = y'.
Proof.
  intros (F & d & Hd & E & D) (F' & d' & Hd' & E' & D'). eapply uniqueness_limite; [exact D|].
  apply dlim_ext_loc with F'; auto. exists (Rmin d d'). split; [now apply Rmin_glb_lt|]. intros t Ht.
  assert (L1 : Rabs (t - x0) < d) by (eapply Rlt_le_trans; [exact Ht|apply Rmin_l]).
  assert (L2 : Rabs (t - x0) < d') by (eapply Rlt_le_trans; [exact Ht|apply Rmin_r]).
  specialize (E t L1). specialize (E' t L2). congruence.
Qed.

Lemma hd_loc G H x0 y : (exists d, 0 < d /\ forall t, Rabs (t - x0) < d -> G t = H t) -> has_deriv G x0 y -> has_deriv H x0 y.
Proof.
  intros (d & Hd & E) (F & d' & Hd' & E' & D). exists F, (Rmin d d'). split; [now apply Rmin_glb_lt|]. split; auto.
  intros t Ht. rewrite <- E; [apply E'|]; (eapply Rlt_le_trans; [exact Ht|]); [apply Rmin_r|apply Rmin_l].
Qed.
Lemma hd_ext G H x0 y : (forall t, G t = H t) -> has_deriv G x0 y -> has_deriv H x0 y.
Proof. intros E. apply hd_loc. exists 1. split; [lra|auto]. Qed.
Lemma hd_eq G x0 y y' : y = y' -> has_deriv G x0 y -> has_deriv G x0 y'.
Proof. now intros ->. Qed.

Lemma hd_const_loc G x0 c : (exists d, 0 < d /\ forall t, Rabs (t - x0) < d -> G t = Rv c) -> has_deriv G x0 0.
Proof. intros (d & Hd & E). exists (fun _ => c), d. split; auto. split; auto. apply derivable_pt_lim_const. Qed.
Lemma hd_const c x0 : has_deriv (fun _ => Rv c) x0 0.
Proof. apply hd_const_loc with c. exists 1. split; [lra|auto]. Qed.
Lemma hd_id x0 : has_deriv (fun t => Rv t) x0 1.
Proof. exists (fun t => t), 1. split; [lra|]. split; auto. apply derivable_pt_lim_id. Qed.

Lemma hd_add G H x0 y z : has_deriv G x0 y -> has_deriv H x0 z -> has_deriv (fun t => vadd (G t) (H t)) x0 (y + z).
Proof.
  intros (F & d & Hd & E & D) (F' & d' & Hd' & E' & D').
  exists (fun t => F t + F' t), (Rmin d d'). split; [now apply Rmin_glb_lt|]. split.
  - intros t Ht. rewrite E, E'; auto; (eapply Rlt_le_trans; [exact Ht|]); [apply Rmin_r|apply Rmin_l].
  - now apply derivable_pt_lim_plus.
Qed.
Lemma hd_mul G H x0 y z g h : has_deriv G x0 y -> has_deriv H x0 z -> G x0 = Rv g -> H x0 = Rv h ->
  has_deriv (fun t => vmul (G t) (H t)) x0 (y * h + g * z).
Proof.
  intros (F & d & Hd & E & D) (F' & d' & Hd' & E' & D') Hg Hh.
  assert (Z : Rabs (x0 - x0) = 0) by (replace (x0 - x0) with 0 by ring; apply Rabs_R0).
  assert (F x0 = g) by (rewrite E in Hg by lra; congruence). assert (F' x0 = h) by (rewrite E' in Hh by lra; congruence). subst g h.
  exists (fun t => F t * F' t), (Rmin d d'). split; [now apply Rmin_glb_lt|]. split.
  - intros t Ht. rewrite E, E'; auto; (eapply Rlt_le_trans; [exact Ht|]); [apply Rmin_r|apply Rmin_l].
  - now apply derivable_pt_lim_mult.
Qed.

(** Chain rule for a partial function that is [g] around [x]. *)
Lemma hd_comp G (P : val -> val) (g : R -> R) x0 x y g' : has_deriv G x0 y -> G x0 = Rv x ->
  (exists d, 0 < d /\ forall u, Rabs (u - x) < d -> P (Rv u) = Rv (g u)) -> derivable_pt_lim g x g' ->
  has_deriv (fun t => P (G t)) x0 (g' * y).
Proof.
  intros (F & d & Hd & E & D) Hx (d' & Hd' & E') D'.
  assert (Z : Rabs (x0 - x0) = 0) by (replace (x0 - x0) with 0 by ring; apply Rabs_R0).
  assert (F x0 = x) by (rewrite E in Hx by lra; congruence). subst x.
  destruct (dlim_cont _ _ _ D d' Hd') as (d2 & Hd2 & C).
  exists (fun t => g (F t)), (Rmin d d2). split; [now apply Rmin_glb_lt|]. split.
  - intros t Ht. rewrite E, E'; auto; [apply C|]; (eapply Rlt_le_trans; [exact Ht|]); [apply Rmin_r|apply Rmin_l].
  - apply (derivable_pt_lim_comp F g); auto.
Qed.

(** Two arguments: [g] is given by its values along the pair of functions. *)
Lemma hd_comp2 G H (P : val -> val -> val) x0 x y a b l : has_deriv G x0 a -> has_deriv H x0 b -> G x0 = Rv x -> H x0 = Rv y ->
  (forall F F', F x0 = x -> F' x0 = y -> derivable_pt_lim F x0 a -> derivable_pt_lim F' x0 b ->
     has_deriv (fun t => P (Rv (F t)) (Rv (F' t))) x0 l) ->
  has_deriv (fun t => P (G t) (H t)) x0 l.
Proof.
  intros (F & d & Hd & E & D) (F' & d' & Hd' & E' & D') Hx Hy K.
  assert (Z : Rabs (x0 - x0) = 0) by (replace (x0 - x0) with 0 by ring; apply Rabs_R0).
  assert (F x0 = x) by (rewrite E in Hx by lra; congruence). assert (F' x0 = y) by (rewrite E' in Hy by lra; congruence).
  eapply hd_loc; [|apply (K F F'); auto].
  exists (Rmin d d'). split; [now apply Rmin_glb_lt|].
  intros t Ht. rewrite E, E'; auto; (eapply Rlt_le_trans; [exact Ht|]); [apply Rmin_r|apply Rmin_l].
Qed.

(** ** Neighbourhoods *)
Lemma near_gt x c : c < x -> exists d, 0 < d /\ forall u, Rabs (u - x) < d -> c < u.
Proof. intros H. exists (x - c). split; [lra|]. intros u Hu. apply Rabs_def2 in Hu. lra. Qed.
Lemma near_lt x c : x < c -> exists d, 0 < d /\ forall u, Rabs (u - x) < d -> u < c.
Proof. intros H. exists (c - x). split; [lra|]. intros u Hu. apply Rabs_def2 in Hu. lra. Qed.
Lemma near_and x (P Q : R -> Prop) : (exists d, 0 < d /\ forall u, Rabs (u - x) < d -> P u) ->
  (exists d, 0 < d /\ forall u, Rabs (u - x) < d -> Q u) -> exists d, 0 < d /\ forall u, Rabs (u - x) < d -> P u /\ Q u.
Proof.
  intros (d & Hd & H) (d' & Hd' & H'). exists (Rmin d d'). split; [now apply Rmin_glb_lt|].
  intros u Hu. split; [apply H|apply H']; (eapply Rlt_le_trans; [exact Hu|]); [apply Rmin_l|apply Rmin_r].
Qed.
Lemma near_ne x c : x <> c -> exists d, 0 < d /\ forall u, Rabs (u - x) < d -> u <> c.
Proof.
  intros H. destruct (Rtotal_order x c) as [L|[L|L]]; [|contradiction|].
  - destruct (near_lt _ _ L) as (d & Hd & E). exists d. split; auto. intros u Hu. apply E in Hu. lra.
  - destruct (near_gt _ _ L) as (d & Hd & E). exists d. split; auto. intros u Hu. apply E in Hu. lra.
Qed.
Lemma near_impl x (P Q : R -> Prop) : (forall u, P u -> Q u) -> (exists d, 0 < d /\ forall u, Rabs (u - x) < d -> P u) ->
  exists d, 0 < d /\ forall u, Rabs (u - x) < d -> Q u.
Proof. intros H (d & Hd & E). exists d. split; auto. Qed.
Lemma near_all x (P : R -> Prop) : (forall u, P u) -> exists d, 0 < d /\ forall u, Rabs (u - x) < d -> P u.
Proof. intros H. exists 1. split; [lra|auto]. Qed.

(** ** Derivatives of the elementary functions *)
Lemma dlim_powerRZ x z : x <> 0 \/ (1 <= z)%Z -> derivable_pt_lim (fun u => powerRZ u z) x (IZR z * powerRZ x (z - 1)).
Proof.
  intros H. destruct z as [|p|p].
  - apply dlim_ext with (fun _ => 1); [intros; reflexivity|]. rewrite Rmult_0_l. apply derivable_pt_lim_const.
  - apply dlim_ext with (fun u => u ^ Pos.to_nat p); [intros; reflexivity|].
    replace (IZR (Z.pos p) * powerRZ x (Z.pos p - 1)) with (INR (Pos.to_nat p) * x ^ pred (Pos.to_nat p)).
    + apply derivable_pt_lim_pow.
    + rewrite INR_IZR_INZ, positive_nat_Z. f_equal.
      replace (Z.pos p - 1)%Z with (Z.of_nat (pred (Pos.to_nat p))) by lia. apply pow_powerRZ.
  - assert (X : x <> 0) by (destruct H; auto; lia).
    apply dlim_ext with (fun u => 1 / u ^ Pos.to_nat p); [intros u; cbn; unfold Rdiv; now rewrite Rmult_1_l|].
    assert (P : x ^ Pos.to_nat p <> 0) by now apply pow_nonzero.
    replace (IZR (Z.neg p) * powerRZ x (Z.neg p - 1)) with
      ((0 * x ^ Pos.to_nat p - INR (Pos.to_nat p) * x ^ pred (Pos.to_nat p) * 1) / Rsqr (x ^ Pos.to_nat p)).
    + apply (derivable_pt_lim_div (fun _ => 1) (fun u => u ^ Pos.to_nat p)); auto; [apply derivable_pt_lim_const|apply derivable_pt_lim_pow].
    + assert (E : x ^ Pos.to_nat p = x * x ^ pred (Pos.to_nat p)).
      { change (x * x ^ pred (Pos.to_nat p)) with (x ^ S (pred (Pos.to_nat p))). f_equal. lia. }
      assert (P1 : x ^ pred (Pos.to_nat p) <> 0) by now apply pow_nonzero.
      assert (Q : powerRZ x (Z.neg p - 1) = / (x * x ^ Pos.to_nat p)).
      { replace (Z.neg p - 1)%Z with (Z.neg (p + 1)) by lia. cbn. f_equal.
        change (x * x ^ Pos.to_nat p) with (x ^ S (Pos.to_nat p)). f_equal. lia. }
      rewrite Q. replace (IZR (Z.neg p)) with (- INR (Pos.to_nat p)).
      2:{ rewrite INR_IZR_INZ, positive_nat_Z, <- opp_IZR. reflexivity. }
      unfold Rsqr. rewrite E. field. auto.
Qed.

Lemma dlim_tan x : cos x <> 0 -> derivable_pt_lim tan x (/ (cos x * cos x)).
Proof.
  intros H. apply dlim_ext with (fun u => sin u / cos u); [intros; reflexivity|].
  replace (/ (cos x * cos x)) with ((cos x * cos x - - sin x * sin x) / Rsqr (cos x)).
  - apply (derivable_pt_lim_div sin cos); auto; [apply derivable_pt_lim_sin|apply derivable_pt_lim_cos].
  - unfold Rsqr. replace (cos x * cos x - - sin x * sin x) with 1; [field; auto|].
    pose proof (sin2_cos2 x) as E. unfold Rsqr in E. lra.
Qed.
Lemma cosh_nz x : cosh x <> 0.
Proof. unfold cosh. pose proof (exp_pos x). pose proof (exp_pos (- x)). lra. Qed.
Lemma cosh2_sinh2 x : cosh x * cosh x - sinh x * sinh x = 1.
Proof.
  unfold cosh, sinh. assert (E : exp x * exp (- x) = 1) by (rewrite <- exp_plus; replace (x + - x) with 0 by ring; apply exp_0).
  replace ((exp x + exp (- x)) / 2 * ((exp x + exp (- x)) / 2) - (exp x - exp (- x)) / 2 * ((exp x - exp (- x)) / 2)) with (exp x * exp (- x)) by field.
  exact E.
Qed.
Lemma dlim_tanh x : derivable_pt_lim tanh x (1 - tanh x * tanh x).
Proof.
  apply dlim_ext with (fun u => sinh u / cosh u); [intros; reflexivity|]. pose proof (cosh_nz x) as H.
  replace (1 - tanh x * tanh x) with ((cosh x * cosh x - sinh x * sinh x) / Rsqr (cosh x)).
  - apply (derivable_pt_lim_div sinh cosh); auto; [apply derivable_pt_lim_sinh|apply derivable_pt_lim_cosh].
  - unfold tanh, Rsqr. field. auto.
Qed.
Lemma dlim_asin x : -1 < x < 1 -> derivable_pt_lim asin x (/ sqrt (1 - x * x)).
Proof.
  intros H. pose proof (derive_pt_asin x H) as E. apply derive_pt_eq in E. unfold Rsqr in E.
  replace (/ sqrt (1 - x * x)) with (1 / sqrt (1 - x * x)) by (unfold Rdiv; ring). exact E.
Qed.
Lemma dlim_acos x : -1 < x < 1 -> derivable_pt_lim acos x (- / sqrt (1 - x * x)).
Proof.
  intros H. pose proof (derive_pt_acos x H) as E. apply derive_pt_eq in E. unfold Rsqr in E.
  replace (- / sqrt (1 - x * x)) with (-1 / sqrt (1 - x * x)) by (unfold Rdiv; ring). exact E.
Qed.
Lemma dlim_sq_sqrt c x : 0 < x * x + c -> derivable_pt_lim (fun u => ln (u + sqrt (u * u + c))) x (/ sqrt (x * x + c)) \/ x + sqrt (x * x + c) <= 0.
Proof.
  intros H. destruct (Rlt_dec 0 (x + sqrt (x * x + c))) as [P|P]; [left|right; lra].
  assert (S : 0 < sqrt (x * x + c)) by now apply sqrt_lt_R0.
  assert (Dq : derivable_pt_lim (fun u => u * u + c) x (2 * x)).
  { replace (2 * x) with ((1 * x + x * 1) + 0) by ring.
    apply (derivable_pt_lim_plus (fun u => u * u) (fun _ => c)); [|apply derivable_pt_lim_const].
    apply (derivable_pt_lim_mult (fun u => u) (fun u => u)); apply derivable_pt_lim_id. }
  assert (Ds : derivable_pt_lim (fun u => sqrt (u * u + c)) x (/ (2 * sqrt (x * x + c)) * (2 * x))).
  { apply (derivable_pt_lim_comp (fun u => u * u + c) sqrt); auto. now apply derivable_pt_lim_sqrt. }
  assert (Da : derivable_pt_lim (fun u => u + sqrt (u * u + c)) x (1 + / (2 * sqrt (x * x + c)) * (2 * x))).
  { apply (derivable_pt_lim_plus (fun u => u)); auto. apply derivable_pt_lim_id. }
  replace (/ sqrt (x * x + c)) with (/ (x + sqrt (x * x + c)) * (1 + / (2 * sqrt (x * x + c)) * (2 * x))).
  - apply (derivable_pt_lim_comp (fun u => u + sqrt (u * u + c)) ln); auto. now apply derivable_pt_lim_ln.
  - field. split; lra.
Qed.
Lemma dlim_asinh x : derivable_pt_lim (fun u => ln (u + sqrt (u * u + 1))) x (/ sqrt (x * x + 1)).
Proof.
  assert (H : 0 < x * x + 1) by nra. destruct (dlim_sq_sqrt 1 x H) as [D|D]; auto. exfalso.
  assert (S : 0 < sqrt (x * x + 1)) by now apply sqrt_lt_R0.
  assert (Q : sqrt (x * x + 1) * sqrt (x * x + 1) = x * x + 1) by (apply sqrt_sqrt; lra). nra.
Qed.
Lemma dlim_acosh x : 1 < x -> derivable_pt_lim (fun u => ln (u + sqrt (u * u - 1))) x (/ sqrt (x * x - 1)).
Proof.
  intros H1. assert (H : 0 < x * x + -1) by nra. destruct (dlim_sq_sqrt (-1) x H) as [D|D].
  - replace (x * x - 1) with (x * x + -1) by ring. apply dlim_ext with (fun u => ln (u + sqrt (u * u + -1))); auto.
  - exfalso. assert (S : 0 < sqrt (x * x + -1)) by now apply sqrt_lt_R0. lra.
Qed.
Lemma dlim_atanh x : -1 < x < 1 -> derivable_pt_lim (fun u => / 2 * ln ((1 + u) / (1 - u))) x (/ (1 - x * x)).
Proof.
  intros H. assert (P : 0 < (1 + x) / (1 - x)) by (apply Rdiv_lt_0_compat; lra).
  assert (D : derivable_pt_lim (fun u => (1 + u) / (1 - u)) x (((0 + 1) * (1 - x) - (0 - 1) * (1 + x)) / Rsqr (1 - x))).
  { apply (derivable_pt_lim_div (fun u => 1 + u) (fun u => 1 - u)); [| |lra].
    - apply (derivable_pt_lim_plus (fun _ => 1) (fun u => u)); [apply derivable_pt_lim_const|apply derivable_pt_lim_id].
    - apply (derivable_pt_lim_minus (fun _ => 1) (fun u => u)); [apply derivable_pt_lim_const|apply derivable_pt_lim_id]. }
  replace (/ (1 - x * x)) with (0 * ln ((1 + x) / (1 - x)) + / 2 * (/ ((1 + x) / (1 - x)) * (((0 + 1) * (1 - x) - (0 - 1) * (1 + x)) / Rsqr (1 - x)))).
  - apply (derivable_pt_lim_mult (fun _ => / 2) (fun u => ln ((1 + u) / (1 - u))));
      [apply derivable_pt_lim_const|].
    apply (derivable_pt_lim_comp (fun u => (1 + u) / (1 - u)) ln); [exact D|]. now apply derivable_pt_lim_ln.
  - unfold Rsqr. field. repeat split; try lra. nra.
Qed.
