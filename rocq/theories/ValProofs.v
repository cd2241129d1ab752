(** Algebra of the values of ExprSpec. *)
From Coq Require Import String List ZArith Reals Bool Permutation Lra Lia.
From Verif Require Import Outcome ExprModel ExprSpec.
Import ListNotations.
Open Scope R_scope.

Ltac vdec :=
  repeat match goal with
  | |- context [Req_EM_T ?a ?b] => destruct (Req_EM_T a b)
  | |- context [Rlt_dec ?a ?b] => destruct (Rlt_dec a b)
  | |- context [Rle_dec ?a ?b] => destruct (Rle_dec a b)
  end.

Lemma refines_refl a : refines a a.
Proof. destruct a; cbn; auto; congruence. Qed.
Lemma refines_trans a b c : refines a b -> refines b c -> refines a c.
Proof. destruct a, b, c; cbn; intros; subst; try congruence; auto. Qed.
Lemma refines_top a : refines a Top.
Proof. exact Logic.I. Qed.
Lemma refines_Rv a x : refines a (Rv x) -> a = Rv x.
Proof. auto. Qed.
Lemma refines_Top_l a : refines Top a -> a = Top.
Proof. destruct a; cbn; auto; congruence. Qed.
Lemma refines_eq a b : a = b -> refines a b.
Proof. intros ->; apply refines_refl. Qed.
#[export] Hint Resolve refines_refl refines_top : core.

Lemma Rv_inj x y : x = y -> Rv x = Rv y.
Proof. congruence. Qed.

Lemma vadd_comm a b : vadd a b = vadd b a.
Proof. destruct a, b; cbn; auto. apply Rv_inj; ring. Qed.
Lemma vadd_assoc a b c : vadd a (vadd b c) = vadd (vadd a b) c.
Proof. destruct a, b, c; cbn; auto. apply Rv_inj; ring. Qed.
Lemma vadd_0_l a : vadd (Rv 0) a = a.
Proof. destruct a; cbn; auto. apply Rv_inj; ring. Qed.
Lemma vadd_0_r a : vadd a (Rv 0) = a.
Proof. rewrite vadd_comm; apply vadd_0_l. Qed.
Lemma vadd_top_r a : vadd a Top = Top.
Proof. destruct a; reflexivity. Qed.

Lemma vmul_comm a b : vmul a b = vmul b a.
Proof. destruct a, b; cbn; auto. apply Rv_inj; ring. Qed.
Lemma Rmult_zero x y : x * y = 0 -> x = 0 \/ y = 0.
Proof. apply Rmult_integral. Qed.
Lemma vmul_assoc a b c : vmul a (vmul b c) = vmul (vmul a b) c.
Proof.
  destruct a, b, c; cbn; vdec; cbn; auto; vdec; subst; cbn; auto; try (apply Rv_inj; ring);
    try (exfalso; nra);
    try (match goal with H : ?x * ?y = 0 |- _ => apply Rmult_integral in H; destruct H; congruence end).
Qed.
Lemma vmul_1_l a : vmul (Rv 1) a = a.
Proof. destruct a; cbn; vdec; auto; try lra. apply Rv_inj; ring. Qed.
Lemma vmul_1_r a : vmul a (Rv 1) = a.
Proof. rewrite vmul_comm; apply vmul_1_l. Qed.
Lemma vmul_top_r a : vmul a Top = Top.
Proof. destruct a; reflexivity. Qed.
Lemma vmul_swap a b c : vmul a (vmul b c) = vmul b (vmul a c).
Proof. rewrite !vmul_assoc, (vmul_comm a b). reflexivity. Qed.
Lemma vadd_swap a b c : vadd a (vadd b c) = vadd b (vadd a c).
Proof. rewrite !vadd_assoc, (vadd_comm a b). reflexivity. Qed.

Lemma vadd_mono a a' b b' : refines a a' -> refines b b' -> refines (vadd a b) (vadd a' b').
Proof. destruct a, a', b, b'; cbn; intros; try congruence; auto; try (injection H; injection H0; intros; subst; reflexivity). Qed.

Lemma vmul_mono a a' b b' : refines a a' -> refines b b' -> refines (vmul a b) (vmul a' b').
Proof.
  destruct a, a', b, b'; cbn; intros; try congruence; auto;
    repeat match goal with H : Rv _ = Rv _ |- _ => injection H as H; subst end; vdec; subst; cbn;
    try congruence; auto; try (apply Rv_inj; ring).
Qed.

Lemma vadd_refines_l a a' b : refines a a' -> refines (vadd a b) (vadd a' b).
Proof. intros; apply vadd_mono; auto. Qed.
Lemma vmul_refines_l a a' b : refines a a' -> refines (vmul a b) (vmul a' b).
Proof. intros; apply vmul_mono; auto. Qed.
Lemma vmul_refines_r a b b' : refines b b' -> refines (vmul a b) (vmul a b').
Proof. intros; apply vmul_mono; auto. Qed.

(** Distribution of a real factor. *)
Lemma vmul_vadd_Rv c a b : vmul (vadd a b) (Rv c) = vadd (vmul a (Rv c)) (vmul b (Rv c)).
Proof.
  destruct a, b; cbn; vdec; subst; cbn; auto; try (apply Rv_inj; ring);
    try (f_equal; ring).
Qed.

(** Sums and products. *)
Lemma vsum_cons a l : vsum (a :: l) = vadd a (vsum l).
Proof. reflexivity. Qed.
Lemma vprod_cons a l : vprod (a :: l) = vmul a (vprod l).
Proof. reflexivity. Qed.
Lemma vsum_app l m : vsum (l ++ m) = vadd (vsum l) (vsum m).
Proof. induction l; cbn [app vsum fold_right]; [symmetry; apply vadd_0_l|].
  change (fold_right vadd (Rv 0) ?x) with (vsum x) in *. rewrite IHl. apply vadd_assoc. Qed.
Lemma vprod_app l m : vprod (l ++ m) = vmul (vprod l) (vprod m).
Proof. induction l; cbn [app vprod fold_right]; [symmetry; apply vmul_1_l|].
  change (fold_right vmul (Rv 1) ?x) with (vprod x) in *. rewrite IHl. apply vmul_assoc. Qed.
Lemma vsum_perm l m : Permutation l m -> vsum l = vsum m.
Proof. induction 1; rewrite ?vsum_cons; try congruence. apply vadd_swap. Qed.
Lemma vprod_perm l m : Permutation l m -> vprod l = vprod m.
Proof. induction 1; rewrite ?vprod_cons; try congruence. apply vmul_swap. Qed.
Lemma vsum_mono l m : Forall2 refines l m -> refines (vsum l) (vsum m).
Proof. induction 1; [apply refines_refl|]. rewrite !vsum_cons. apply vadd_mono; auto. Qed.
Lemma vprod_mono l m : Forall2 refines l m -> refines (vprod l) (vprod m).
Proof. induction 1; [apply refines_refl|]. rewrite !vprod_cons. apply vmul_mono; auto. Qed.
Lemma vsum_one a : vsum [a] = a.
Proof. cbn. apply vadd_0_r. Qed.
Lemma vprod_one a : vprod [a] = a.
Proof. cbn. apply vmul_1_r. Qed.
Lemma vsum_two a b : vsum [a; b] = vadd a b.
Proof. rewrite vsum_cons, vsum_one. reflexivity. Qed.
Lemma vprod_two a b : vprod [a; b] = vmul a b.
Proof. rewrite vprod_cons, vprod_one. reflexivity. Qed.
Lemma vsum_map_mul c l : vsum (map (fun a => vmul a (Rv c)) l) = vmul (vsum l) (Rv c).
Proof.
  induction l; cbn [map]; [cbn; apply Rv_inj; ring|].
  rewrite !vsum_cons, IHl, vmul_vadd_Rv. reflexivity.
Qed.
Lemma vprod_filter {A} (f : A -> val) (p : A -> bool) l :
  vprod (map f l) = vmul (vprod (map f (filter p l))) (vprod (map f (filter (fun x => negb (p x)) l))).
Proof.
  induction l as [|a l IH]; cbn [map filter]; [cbn; apply Rv_inj; ring|].
  destruct (p a); cbn [negb map]; rewrite !vprod_cons, IH, ?vmul_assoc; auto.
  rewrite (vmul_comm (f a)). reflexivity.
Qed.

(** Zero times a defined value. *)
Lemma vmul_0_refines a : refines (Rv 0) (vmul (Rv 0) a).
Proof. destruct a; cbn; vdec; cbn; auto; try congruence. apply Rv_inj; ring. Qed.

(** ** Powers *)
Lemma Int_part_IZR z : Int_part (IZR z) = z.
Proof.
  unfold Int_part. assert (H : up (IZR z) = (z + 1)%Z).
  { symmetry; apply tech_up; rewrite plus_IZR; lra. } rewrite H; lia.
Qed.

Lemma vpow_pos x y : 0 < x -> vpow (Rv x) (Rv y) = Rv (Rpower x y).
Proof. intros; cbn; vdec; auto; lra. Qed.
Lemma vpow_zero y : 0 < y -> vpow (Rv 0) (Rv y) = Rv 0.
Proof. intros; cbn; vdec; auto; try lra. Qed.
Lemma vpow_zero_top y : y <= 0 -> vpow (Rv 0) (Rv y) = Top.
Proof. intros; cbn; vdec; auto; lra. Qed.
Lemma vpow_neg_int x z : x < 0 -> vpow (Rv x) (Rv (IZR z)) = Rv (powerRZ x z).
Proof. intros; cbn; rewrite Int_part_IZR; vdec; auto; lra. Qed.
Lemma vpow_neg_nonint x y : x < 0 -> ~ is_integer_R y -> vpow (Rv x) (Rv y) = Fin.
Proof. intros Hx H; cbn; vdec; auto; try lra. exfalso; apply H; eexists; eauto. Qed.
Lemma vpow_fin y : 0 < y -> vpow Fin (Rv y) = Fin.
Proof. intros; cbn; vdec; auto; lra. Qed.
Lemma vpow_fin_top y : y <= 0 -> vpow Fin (Rv y) = Top.
Proof. intros; cbn; vdec; auto; lra. Qed.
Lemma vpow_top_l e : vpow Top e = Top.
Proof. reflexivity. Qed.
Lemma vpow_top_r b : vpow b Top = Top.
Proof. destruct b; reflexivity. Qed.
Lemma vpow_fin_r b : vpow b Fin = Top.
Proof. destruct b; reflexivity. Qed.

Lemma int_dec y : is_integer_R y \/ ~ is_integer_R y.
Proof.
  destruct (Req_EM_T y (IZR (Int_part y))); [left; eexists; eauto|right].
  intros [z ->]. rewrite Int_part_IZR in n. auto.
Qed.

Lemma Rpower_IZR x z : 0 < x -> Rpower x (IZR z) = powerRZ x z.
Proof. intros. symmetry; apply powerRZ_Rpower; auto. Qed.

(** A nonzero base with an integer exponent. *)
Lemma vpow_int x z : x <> 0 -> vpow (Rv x) (Rv (IZR z)) = Rv (powerRZ x z).
Proof.
  intros H. destruct (Rtotal_order 0 x) as [H1|[H1|H1]]; [|lra|].
  - rewrite vpow_pos, Rpower_IZR; auto.
  - apply vpow_neg_int; lra.
Qed.

Lemma vpow_not_top x y : x <> 0 -> vpow (Rv x) (Rv y) <> Top.
Proof. intros; cbn; vdec; congruence. Qed.

Lemma vpow_1_r a : vpow a (Rv 1) = a.
Proof.
  destruct a; cbn; auto.
  - destruct (Rlt_dec 0 x); [apply Rv_inj, Rpower_1; auto|].
    destruct (Req_EM_T x 0); [subst; destruct (Rlt_dec 0 1); auto; lra|].
    assert (E : Int_part 1 = 1%Z) by (change 1 with (IZR 1); apply Int_part_IZR).
    rewrite E. destruct (Req_EM_T 1 1); [|congruence]. now rewrite powerRZ_1.
  - vdec; auto; lra.
Qed.

Lemma vpow_0_r a : refines (Rv 1) (vpow a (Rv 0)).
Proof.
  destruct a; [|cbn; destruct (Rlt_dec 0 0); cbn; auto; lra|cbn; auto].
  destruct (Req_dec x 0) as [->|H]; [rewrite vpow_zero_top by lra; auto|].
  rewrite (vpow_int x 0) by auto. reflexivity.
Qed.

Lemma vpow_mono a a' b b' : refines a a' -> refines b b' -> refines (vpow a b) (vpow a' b').
Proof.
  intros Ha Hb. destruct b'; cbn in Hb.
  - subst b. destruct a'; cbn in Ha.
    + subst a; auto.
    + destruct a; [|auto|congruence].
      destruct (Rlt_dec 0 x).
      * rewrite (vpow_fin x) by auto. cbn. vdec; congruence.
      * cbn [vpow]. destruct (Rlt_dec 0 x); [lra|]. auto.
    + cbn; auto.
  - rewrite vpow_fin_r; auto.
  - rewrite vpow_top_r; auto.
Qed.

Lemma powerRZ_add_nz x a b : x <> 0 -> powerRZ x (a + b) = powerRZ x a * powerRZ x b.
Proof. apply powerRZ_add. Qed.

Lemma is_integer_plus a b : is_integer_R a -> is_integer_R b -> is_integer_R (a + b).
Proof. intros [x ->] [y ->]. exists (x + y)%Z. now rewrite plus_IZR. Qed.

Lemma vpow_add b x y : refines (vpow b (vadd x y)) (vmul (vpow b x) (vpow b y)).
Proof.
  destruct x as [x| |], y as [y| |];
    try (rewrite ?vpow_fin_r, ?vpow_top_r, ?vmul_top_r; cbn [vmul]; auto; fail).
  cbn [vadd]. destruct b as [b| |]; [|..].
  - destruct (Rtotal_order 0 b) as [H|[H|H]].
    + rewrite !vpow_pos by auto. cbn. apply Rv_inj. rewrite Rpower_plus. reflexivity.
    + subst b. destruct (Rlt_dec 0 x), (Rlt_dec 0 y);
        try (rewrite (vpow_zero_top x) by lra; cbn [vmul]; auto; fail);
        try (rewrite (vpow_zero_top y) by lra; rewrite vmul_top_r; auto; fail).
      rewrite !vpow_zero by lra. cbn. apply Rv_inj; ring.
    + apply Rgt_lt in H.
      destruct (int_dec x) as [Hx|Hx], (int_dec y) as [Hy|Hy].
      * destruct Hx as [zx ->], Hy as [zy ->]. rewrite <- plus_IZR, !vpow_neg_int by auto.
        cbn. apply Rv_inj. apply powerRZ_add; lra.
      * rewrite (vpow_neg_nonint b y) by auto. destruct Hx as [zx ->]. rewrite vpow_neg_int by auto.
        cbn [vmul]. destruct (Req_EM_T (powerRZ b zx) 0); [exfalso; revert e; apply powerRZ_NOR; lra|].
        cbn. fold (vpow (Rv b) (Rv (IZR zx + y))). apply vpow_not_top; lra.
      * rewrite (vpow_neg_nonint b x) by auto. destruct Hy as [zy ->]. rewrite vpow_neg_int by auto.
        cbn [vmul]. destruct (Req_EM_T (powerRZ b zy) 0); [exfalso; revert e; apply powerRZ_NOR; lra|].
        apply vpow_not_top; lra.
      * rewrite !(vpow_neg_nonint b) with (y := x) by auto. rewrite (vpow_neg_nonint b y) by auto.
        cbn [vmul]. apply vpow_not_top; lra.
  - destruct (Rlt_dec 0 x), (Rlt_dec 0 y);
      try (rewrite (vpow_fin_top x) by lra; cbn [vmul]; auto; fail);
      try (rewrite (vpow_fin_top y) by lra; rewrite vmul_top_r; auto; fail).
    rewrite !vpow_fin by lra. cbn; congruence.
  - cbn; auto.
Qed.

Lemma powerRZ_zero z : (0 < z)%Z -> powerRZ 0 z = 0.
Proof. destruct z; cbn; try lia. intros. apply pow_i. lia. Qed.

Lemma vpow_0_int z : (0 < z)%Z -> vpow (Rv 0) (Rv (IZR z)) = Rv 0.
Proof. intros. apply vpow_zero. now apply (IZR_lt 0). Qed.

(** (a * b) ^ n for an integer n. *)
Lemma vpow_mul_int a b z : refines (vmul (vpow a (Rv (IZR z))) (vpow b (Rv (IZR z)))) (vpow (vmul a b) (Rv (IZR z))).
Proof.
  destruct (Z_lt_le_dec 0 z) as [Hz|Hz].
  - assert (HR : 0 < IZR z) by now apply (IZR_lt 0).
    assert (H0 : forall x, vpow (Rv x) (Rv (IZR z)) = Rv (powerRZ x z)).
    { intros x. destruct (Req_dec x 0) as [->|H]; [rewrite vpow_zero, powerRZ_zero by auto; auto|].
      now apply vpow_int. }
    destruct a as [x| |], b as [y| |]; rewrite ?vpow_top_l, ?vmul_top_r; cbn [vmul];
      rewrite ?vpow_top_l, ?H0, ?vpow_fin by auto; auto.
    + cbn. apply Rv_inj. now rewrite powerRZ_mult by (left; lia).
    + vdec; subst.
      * rewrite H0. cbn. vdec; rewrite powerRZ_zero in * by auto; auto; congruence.
      * rewrite vpow_fin by auto. cbn. vdec; congruence.
    + vdec; subst.
      * rewrite H0. cbn. vdec; rewrite powerRZ_zero in * by auto; auto; congruence.
      * rewrite vpow_fin by auto. cbn. vdec; congruence.
  - assert (HR : IZR z <= 0) by now apply IZR_le.
    destruct a as [x| |], b as [y| |]; rewrite ?vpow_top_l, ?vmul_top_r; cbn [vmul];
      rewrite ?vpow_top_l, ?vpow_fin_top by auto; rewrite ?vpow_top_l; auto.
    + destruct (Req_dec x 0) as [->|Hx]; [rewrite Rmult_0_l, !vpow_zero_top by auto; cbn; auto|].
      destruct (Req_dec y 0) as [->|Hy]; [rewrite Rmult_0_r, !vpow_zero_top by auto; cbn; auto|].
      assert (x * y <> 0) by (intros E; apply Rmult_integral in E; tauto).
      rewrite !vpow_int by auto. cbn. apply Rv_inj. rewrite powerRZ_mult; auto.
    + vdec; [rewrite vpow_zero_top by auto; auto|rewrite vpow_fin_top by auto; auto].
    + vdec; [rewrite vpow_zero_top by auto; auto|rewrite vpow_fin_top by auto; auto].
Qed.

Lemma vprod_pow_int l z : l <> [] ->
  refines (vprod (map (fun a => vpow a (Rv (IZR z))) l)) (vpow (vprod l) (Rv (IZR z))).
Proof.
  induction l as [|a l IH]; [congruence|intros _].
  destruct l as [|b l].
  - cbn [map]. rewrite !vprod_one. auto.
  - cbn [map]. rewrite vprod_cons, (vprod_cons a). eapply refines_trans; [|apply vpow_mul_int].
    apply vmul_mono; auto. apply IH; congruence.
Qed.

(** (a * b) ^ q when a is zero or positive. *)
Lemma vpow_mul_nonneg a b q : (forall x, a = Rv x -> 0 <= x) ->
  refines (vmul (vpow a q) (vpow b q)) (vpow (vmul a b) q).
Proof.
  intros Ha. destruct q as [q| |]; [|rewrite !vpow_fin_r; auto|rewrite !vpow_top_r; auto].
  destruct a as [x| |]; [|..].
  - specialize (Ha x eq_refl).
    destruct (Req_dec x 0) as [->|Hx].
    + destruct (Rlt_dec 0 q) as [Hq|Hq].
      * rewrite vpow_zero by auto.
        destruct b as [y| |]; cbn [vmul].
        -- rewrite Rmult_0_l, vpow_zero by auto.
           assert (vpow (Rv y) (Rv q) <> Top).
           { destruct (Req_dec y 0) as [->|]; [rewrite vpow_zero by auto; congruence|now apply vpow_not_top]. }
           destruct (vpow (Rv y) (Rv q)); cbn; vdec; try congruence. apply Rv_inj; ring.
        -- rewrite vpow_fin by auto. vdec; try congruence. rewrite vpow_zero by auto. cbn. vdec; congruence.
        -- cbn; auto.
      * destruct b as [y| |]; cbn [vmul].
        -- rewrite Rmult_0_l. rewrite !(vpow_zero_top q) by lra. cbn; auto.
        -- vdec; try congruence. rewrite !(vpow_zero_top q) by lra. cbn; auto.
        -- cbn; auto.
    + assert (0 < x) by lra.
      destruct b as [y| |]; cbn [vmul].
      * rewrite (vpow_pos x) by auto.
        destruct (Rtotal_order 0 y) as [Hy|[Hy|Hy]].
        -- rewrite !vpow_pos by (auto; nra). cbn. apply Rv_inj. unfold Rpower.
           rewrite <- exp_plus, ln_mult by auto. f_equal; ring.
        -- subst y. rewrite Rmult_0_r. destruct (Rlt_dec 0 q).
           ++ rewrite !vpow_zero by auto. cbn. apply Rv_inj; ring.
           ++ rewrite !vpow_zero_top by lra. cbn; auto.
        -- apply Rgt_lt in Hy. assert (x * y < 0) by nra.
           destruct (int_dec q) as [[z ->]|Hq].
           ++ rewrite !vpow_neg_int by auto. cbn. apply Rv_inj. rewrite Rpower_IZR by auto.
              rewrite powerRZ_mult; auto.
           ++ rewrite !vpow_neg_nonint by auto. cbn. vdec; congruence.
      * vdec; [congruence|]. rewrite vpow_pos by auto. destruct (Rlt_dec 0 q).
        -- rewrite !vpow_fin by auto. cbn. vdec; congruence.
        -- rewrite !vpow_fin_top by lra. auto.
      * cbn; auto.
  - destruct b as [y| |]; cbn [vmul]; auto.
    + destruct (Rlt_dec 0 q) as [Hq|Hq].
      * rewrite (vpow_fin q) by auto. vdec.
        -- subst. rewrite vpow_zero by auto. cbn. vdec; congruence.
        -- rewrite vpow_fin by auto.
           assert (vpow (Rv y) (Rv q) <> Top) by now apply vpow_not_top.
           destruct (vpow (Rv y) (Rv q)); cbn; vdec; congruence.
      * vdec; [rewrite vpow_zero_top by lra; auto|rewrite vpow_fin_top by lra; auto].
    + destruct (Rlt_dec 0 q); [rewrite !vpow_fin by auto; cbn; congruence|rewrite !vpow_fin_top by lra; auto].
  - cbn; auto.
Qed.

Lemma powerRZ_powerRZ x a b : x <> 0 -> powerRZ x (a * b) = powerRZ (powerRZ x a) b.
Proof.
  intros Hx. assert (H1 : forall n, powerRZ x (a * Z.of_nat n) = powerRZ (powerRZ x a) (Z.of_nat n)).
  { induction n; [now rewrite Z.mul_0_r|]. rewrite Nat2Z.inj_succ, <- Z.add_1_r, Z.mul_add_distr_l, Z.mul_1_r.
    rewrite !powerRZ_add, IHn, powerRZ_1 by (try apply powerRZ_NOR; auto). reflexivity. }
  destruct (Z_le_gt_dec 0 b).
  - rewrite <- (Z2Nat.id b) by lia. apply H1.
  - replace b with (- (Z.of_nat (Z.to_nat (- b))))%Z by lia.
    rewrite Z.mul_opp_r, !powerRZ_neg', H1. reflexivity.
Qed.

(** The three ways in which an outer exponent may be multiplied into an inner one. *)
Lemma vpow_pow_int b x z : refines (vpow b (vmul x (Rv (IZR z)))) (vpow (vpow b x) (Rv (IZR z))).
Proof.
  destruct x as [x| |]; rewrite ?vpow_fin_r, ?vpow_top_r, ?vpow_top_l; auto. cbn [vmul].
  destruct b as [b| |]; [|..].
  - destruct (Rtotal_order 0 b) as [H|[H|H]].
    + rewrite (vpow_pos b x), vpow_pos by auto.
      rewrite vpow_pos by apply exp_pos. rewrite Rpower_mult. apply refines_refl.
    + subst b. destruct (Rlt_dec 0 x) as [Hx|Hx].
      * rewrite (vpow_zero x) by auto. destruct (Rlt_dec 0 (IZR z)).
        -- rewrite vpow_zero by nra. rewrite vpow_zero by auto. auto.
        -- rewrite (vpow_zero_top (IZR z)) by lra. auto.
      * rewrite (vpow_zero_top x) by lra. cbn; auto.
    + apply Rgt_lt in H. destruct (int_dec x) as [[k ->]|Hx].
      * rewrite <- mult_IZR, !vpow_neg_int by auto.
        rewrite vpow_int by (apply powerRZ_NOR; lra). cbn. apply Rv_inj.
        apply powerRZ_powerRZ; lra.
      * rewrite (vpow_neg_nonint b x) by auto. destruct (Rlt_dec 0 (IZR z)).
        -- rewrite vpow_fin by auto. cbn [refines]. apply vpow_not_top; lra.
        -- rewrite vpow_fin_top by lra. auto.
  - destruct (Rlt_dec 0 x) as [Hx|Hx].
    + rewrite (vpow_fin x) by auto. destruct (Rlt_dec 0 (IZR z)).
      * rewrite !vpow_fin by (auto; nra). auto.
      * rewrite (vpow_fin_top (IZR z)) by lra. auto.
    + rewrite (vpow_fin_top x) by lra. cbn; auto.
  - cbn; auto.
Qed.

Lemma vpow_pow_nonneg b x y : (forall r, b = Rv r -> 0 <= r) ->
  refines (vpow b (vmul x y)) (vpow (vpow b x) y).
Proof.
  intros Hb. destruct y as [y| |]; rewrite ?vpow_fin_r, ?vpow_top_r; auto.
  destruct x as [x| |]; rewrite ?vpow_fin_r, ?vpow_top_r, ?vpow_top_l; auto. cbn [vmul].
  destruct b as [b| |]; [|..].
  - specialize (Hb b eq_refl). destruct (Req_dec b 0) as [->|H].
    + destruct (Rlt_dec 0 x) as [Hx|Hx].
      * rewrite (vpow_zero x) by auto. destruct (Rlt_dec 0 y).
        -- rewrite vpow_zero by nra. rewrite vpow_zero by auto. auto.
        -- rewrite (vpow_zero_top y) by lra. auto.
      * rewrite (vpow_zero_top x) by lra. cbn; auto.
    + rewrite (vpow_pos b x), vpow_pos by lra.
      rewrite vpow_pos by apply exp_pos. rewrite Rpower_mult. apply refines_refl.
  - destruct (Rlt_dec 0 x) as [Hx|Hx].
    + rewrite (vpow_fin x) by auto. destruct (Rlt_dec 0 y).
      * rewrite !vpow_fin by (auto; nra). auto.
      * rewrite (vpow_fin_top y) by lra. auto.
    + rewrite (vpow_fin_top x) by lra. cbn; auto.
  - cbn; auto.
Qed.

Lemma vpow_pow_nonint b x y : ~ is_integer_R x -> refines (vpow b (vmul (Rv x) y)) (vpow (vpow b (Rv x)) y).
Proof.
  intros Hx. destruct b as [b| |].
  - destruct (Rle_dec 0 b) as [H|H].
    + apply vpow_pow_nonneg. intros r E; injection E as ->; auto.
    + destruct y as [y| |]; rewrite ?vpow_fin_r, ?vpow_top_r; auto.
      rewrite (vpow_neg_nonint b x) by (auto; lra). cbn [vmul].
      destruct (Rlt_dec 0 y).
      * rewrite vpow_fin by auto. cbn [refines]. apply vpow_not_top; lra.
      * rewrite vpow_fin_top by lra. auto.
  - apply vpow_pow_nonneg. congruence.
  - cbn; auto.
Qed.
