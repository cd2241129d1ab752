(** Distribution keeps values. *)
From Coq Require Import String List ZArith Reals Bool Lra Lia.
From Verif Require Import Outcome CheckedIntModel RationalModel RationalSpec ExprModel ExprSpec ValProofs ExprProofs OrderSpec NumProofs BuildModel BuildProofs PowProofs
  SumProofs FuncModel FuncProofs DerivModel DerivSpec DerivFnProofs DerivProofs MapModel MapSpec MapProofs TransSpec ClosureProofs MapRunProofs MemoProofs CheckedIntProofs
  LowerSortProofs CollectProofs DistModel DistSpec.
Import ListNotations.
Open Scope R_scope.

(** ** Values *)
Definition clash (a b : val) : Prop := (a = Rv 0 /\ b = Fin) \/ (a = Fin /\ b = Rv 0).

Lemma vsum_not_top l : vsum l <> Top -> Forall (fun v => v <> Top) l.
Proof. induction l as [|a l IH]; intros H; constructor; rewrite vsum_cons in H. - intros ->. now apply H. - apply IH. intros E. rewrite E, vadd_top_r in H. now apply H. Qed.
Lemma vsum_not_top' l : Forall (fun v => v <> Top) l -> vsum l <> Top.
Proof. induction 1 as [|a l Ha _ IH]; [discriminate|]. rewrite vsum_cons. destruct a, (vsum l); cbn; congruence. Qed.
Lemma vmul_not_top a b : a <> Top -> b <> Top -> vmul a b <> Top.
Proof. destruct a, b; cbn; try congruence; destruct (Req_EM_T _ _); congruence. Qed.
Definition Rsum (l : list R) : R := fold_right Rplus 0 l.
Lemma vsum_reals l x : vsum l = Rv x -> exists xs, l = map Rv xs /\ x = Rsum xs.
Proof.
  revert x. induction l as [|a l IH]; intros x H. - injection H as <-. exists []. auto.
  - rewrite vsum_cons in H. destruct a as [a| |], (vsum l) as [y| |]; try discriminate. injection H as <-. destruct (IH y eq_refl) as (xs & -> & ->). exists (a :: xs). auto.
Qed.
Lemma vsum_map_Rv xs : vsum (map Rv xs) = Rv (Rsum xs).
Proof. induction xs as [|x xs IH]; [reflexivity|]. cbn [map]. rewrite vsum_cons, IH. reflexivity. Qed.
Lemma Rsum_app a b : Rsum (a ++ b) = Rsum a + Rsum b.
Proof. induction a as [|x a IH]; [symmetry; apply Rplus_0_l|]. change (x + Rsum (a ++ b) = x + Rsum a + Rsum b). lra. Qed.
Lemma Rsum_prod xs ys : Rsum (map (fun p => fst p * snd p) (list_prod xs ys)) = Rsum xs * Rsum ys.
Proof.
  induction xs as [|x xs IH]; cbn [list_prod]; [cbn; lra|]. rewrite map_app, Rsum_app, IH.
  assert (E : Rsum (map (fun p => fst p * snd p) (map (fun y => (x, y)) ys)) = x * Rsum ys).
  { clear. induction ys as [|y ys IH]; cbn; [lra|]. change (x * y + Rsum (map (fun p => fst p * snd p) (map (fun y => (x, y)) ys)) = x * (y + Rsum ys)). lra. }
  rewrite E. cbn. change (x * Rsum ys + Rsum xs * Rsum ys = (x + Rsum xs) * Rsum ys). lra.
Qed.
Lemma list_prod_map {A B} (f : A -> B) l m : list_prod (map f l) (map f m) = map (fun p => (f (fst p), f (snd p))) (list_prod l m).
Proof. induction l as [|a l IH]; cbn; [reflexivity|]. rewrite map_app, IH, !map_map. reflexivity. Qed.

Lemma pairs_value A B a b : refines (vsum A) a -> refines (vsum B) b -> ~ clash a b ->
  refines (vsum (map (fun p => vmul (fst p) (snd p)) (list_prod A B))) (vmul a b).
Proof.
  intros Ha Hb Hc.
  assert (NT : a <> Top -> b <> Top -> vsum (map (fun p => vmul (fst p) (snd p)) (list_prod A B)) <> Top).
  { intros Na Nb. apply vsum_not_top'. rewrite Forall_map, Forall_forall. intros [x y] Hin. cbn. apply in_prod_iff in Hin.
    assert (vsum A <> Top) as HA by (intros E; rewrite E in Ha; apply refines_Top_l in Ha; auto).
    assert (vsum B <> Top) as HB by (intros E; rewrite E in Hb; apply refines_Top_l in Hb; auto).
    apply vsum_not_top in HA. apply vsum_not_top in HB. rewrite Forall_forall in HA, HB. apply vmul_not_top; [apply HA|apply HB]; tauto. }
  destruct a as [x| |], b as [y| |]; try apply refines_top; try (apply NT; discriminate).
  - cbn [vmul]. apply refines_Rv in Ha. apply refines_Rv in Hb. apply vsum_reals in Ha. apply vsum_reals in Hb.
    destruct Ha as (xs & -> & ->), Hb as (ys & -> & ->). rewrite list_prod_map, map_map. cbn [fst snd vmul].
    rewrite <- (map_map (fun p : R * R => fst p * snd p) Rv). rewrite vsum_map_Rv, Rsum_prod. reflexivity.
  - cbn [vmul]. destruct (Req_EM_T x 0) as [->|]; [destruct Hc; left; auto|]. apply NT; discriminate.
  - cbn [vmul]. destruct (Req_EM_T y 0) as [->|]; [destruct Hc; right; auto|]. apply NT; discriminate.
Qed.

(** Combining from the back. *)
Fixpoint clashless (l : list val) : Prop := match l with [] => True | v :: t => ~ clash v (vprod t) /\ clashless t end.
Lemma clash_dec a b : clash a b \/ ~ clash a b.
Proof.
  unfold clash. destruct a as [x| |], b as [y| |]; try (right; intros [[? ?]|[? ?]]; congruence).
  - destruct (Req_EM_T x 0) as [->|N]; [left; auto|right]. intros [[H _]|[H _]]; [injection H; auto|discriminate].
  - destruct (Req_EM_T y 0) as [->|N]; [left; auto|right]. intros [[_ H]|[_ H]]; [discriminate|injection H; auto].
Qed.
Lemma clashless_cases l : clashless l \/ ((vprod l = Rv 0 \/ vprod l = Top) /\ Exists (fun v => v = Fin \/ v = Top) l).
Proof.
  assert (FT : forall l, vprod l = Fin -> Exists (fun v => v = Fin \/ v = Top) l).
  { clear. induction l as [|a l IH]; intros H; [discriminate|]. rewrite vprod_cons in H.
    destruct a as [x| |]; [right; apply IH|left; auto|left; auto]. destruct (vprod l) as [y| |]; auto; discriminate. }
  induction l as [|a l IH]; [left; exact Logic.I|]. rewrite vprod_cons. destruct IH as [IH|[V X]].
  - destruct (clash_dec a (vprod l)) as [[[-> E]|[-> E]]|N]; [right|right|left; split; auto].
    + rewrite E. cbn. destruct (Req_EM_T 0 0); [|lra]. split; auto.
    + rewrite E. cbn. destruct (Req_EM_T 0 0); [|lra]. split; auto.
  - right. split; [|right; exact X]. destruct V as [V|V]; rewrite V.
    + destruct a as [x| |]; cbn; auto. * left. f_equal. lra. * destruct (Req_EM_T 0 0); auto; lra.
    + right. apply vmul_top_r.
Qed.

Lemma classic_clashless l : clashless l \/ ~ clashless l.
Proof. induction l as [|a l [IH|IH]]; [left; exact Logic.I| |right; now intros [_ H]]. destruct (clash_dec a (vprod l)); [right; now intros [H1 _]|left; split; auto]. Qed.

(** Repeated squaring. *)
Fixpoint vsquare (r b : val) (p : positive) : val :=
  match p with
  | xH => vmul r b
  | xO p => vsquare r (vmul b b) p
  | xI p => vsquare (vmul r b) (vmul b b) p
  end.
Lemma vsquare_real p : forall x y, vsquare (Rv x) (Rv y) p = Rv (x * y ^ Pos.to_nat p).
Proof.
  induction p as [p IH|p IH|]; intros x y; cbn [vsquare vmul].
  - rewrite IH. f_equal. rewrite Pos2Nat.inj_xI. cbn. replace (Pos.to_nat p + (Pos.to_nat p + 0))%nat with (Pos.to_nat p + Pos.to_nat p)%nat by lia. rewrite pow_add, Rpow_mult_distr. ring.
  - rewrite IH. f_equal. rewrite Pos2Nat.inj_xO. cbn. replace (Pos.to_nat p + (Pos.to_nat p + 0))%nat with (Pos.to_nat p + Pos.to_nat p)%nat by lia. rewrite pow_add, Rpow_mult_distr. ring.
  - apply Rv_inj. change (Pos.to_nat 1) with 1%nat. ring.
Qed.
Lemma vsquare_fin p : forall r, (r = Fin \/ exists x, r = Rv x /\ x <> 0) -> vsquare r Fin p = Fin.
Proof.
  assert (V : forall r, (r = Fin \/ exists x, r = Rv x /\ x <> 0) -> vmul r Fin = Fin).
  { intros r [->|(x & -> & Hx)]; [reflexivity|]. cbn. destruct (Req_EM_T x 0); congruence. }
  induction p as [p IH|p IH|]; intros r Hr; cbn [vsquare]; [rewrite (V r Hr)| |auto]; apply IH; auto.
Qed.

Definition calm (r b : val) : Prop :=
  (exists x y, r = Rv x /\ b = Rv y) \/ (b = Fin /\ (r = Fin \/ exists x, r = Rv x /\ x <> 0)) \/ b = Top.
Lemma calm_clash r b : calm r b -> ~ clash r b /\ ~ clash b b.
Proof.
  intros H. split; intros [[A B]|[A B]]; subst; try discriminate; destruct H as [(x & y & H1 & H2)|[[H1 H2]|H]]; try discriminate.
  destruct H2 as [H2|(x & H2 & N)]; congruence.
Qed.
Lemma calm_square r b : calm r b -> calm r (vmul b b) /\ calm (vmul r b) (vmul b b).
Proof.
  intros [(x & y & -> & ->)|[[-> H]| ->]].
  - split; left; cbn; eauto.
  - split; right; left; split; auto. left. destruct H as [->|(x & -> & N)]; [reflexivity|]. cbn. destruct (Req_EM_T x 0); congruence.
  - split; right; right; reflexivity.
Qed.

Section Logs.
Context (I : impl) (HI : impl_ok I) (n : nat) (s : env).
Lemma logs_closed : closed (logs_large s).
Proof. constructor; cbn; intros; auto; try tauto; try now rewrite all_of_Forall. Qed.

Lemma rebuilt_logs e ps d : logs_large s e -> Forall (sound_pair s) ps -> Forall (fun p => logs_large s (snd p)) ps -> rebuilt I n e ps d -> logs_large s d.
Proof.
  intros He Hs Hp H.
  assert (F : Forall (logs_large s) (map snd ps)) by (clear - Hp; induction Hp; cbn; constructor; auto).
  destruct e; cbn [rebuilt] in H.
  all: try (destruct H as [-> ->]; exact He).
  - destruct H as [-> H]. eapply Q_e_mul; eauto using logs_closed.
  - destruct H as [-> H]. eapply Q_e_add; eauto using logs_closed.
  - destruct H as (u & w & -> & H). pose proof (Forall_inv F). pose proof (Forall_inv (Forall_inv_tail F)). eapply Q_e_pow; [| | | |exact H]; eauto using logs_closed.
  - destruct H as [-> H]. eapply Q_create_fn; [| | | |exact H]; eauto using logs_closed.
    intros -> a Ha. destruct He as [_ He]. specialize (He eq_refl). destruct ps as [|p ps]; cbn in *; [discriminate|]. injection Ha as <-. apply Forall_inv in F.
    apply Forall_inv in Hs. destruct Hs as [[_ R] _]. destruct He as [(x & Hx & L) _]. rewrite Hx in R. apply refines_Rv in R. repeat split; auto. exists x. auto.
  - destruct H as [-> ->]. cbn. now apply all_of_Forall.
  - destruct H as (u & -> & H). pose proof (Forall_inv F) as F1. cbn in F1. unfold uneval_fn in H. destruct u; injection H as <-; auto.
  - destruct H as [->|[->|(u & x & y & -> & H)]].
    + exact (Forall_inv (Forall_inv_tail F)).
    + exact (Forall_inv (Forall_inv_tail F)).
    + pose proof (Forall_inv F) as F1. pose proof (Forall_inv (Forall_inv_tail F)) as F2. pose proof (Forall_inv (Forall_inv_tail (Forall_inv_tail F))) as F3. cbn [snd] in *.
      unfold cond_fn in H. destruct (ident u (EBool true)), (ident u (EBool false)), (ident x y); injection H as <-; cbn; auto.
  - destruct H as (u & -> & H). pose proof (Forall_inv F) as F1. cbn in F1. unfold iverson_fn in H. destruct u; injection H as <-; auto.
  - destruct H as (u & w & -> & H). pose proof (Forall_inv F) as F1. pose proof (Forall_inv (Forall_inv_tail F)) as F2. cbn [snd] in *.
    unfold deriv_fn in H. destruct (_ <=? 0)%Z; [discriminate|]. destruct (negb (is_diff_arg w)); [discriminate|].
    destruct u; try (injection H as <-; split; auto; fail). destruct (ident u2 w); injection H as <-; split; auto. apply F1.
  - destruct H as (u & w & z & -> & H). pose proof (Forall_inv F) as F1. pose proof (Forall_inv (Forall_inv_tail F)) as F2.
    pose proof (Forall_inv (Forall_inv_tail (Forall_inv_tail F))) as F3. cbn [snd] in *.
    unfold subst_fn in H. destruct (is_num u); [injection H as <-; auto|]. destruct (is_num w); [discriminate|]. destruct (ident w z); injection H as <-; cbn; auto.
  - destruct H as (u & -> & H). pose proof (Forall_inv F) as F1. cbn in F1. unfold stop_fn in H. destruct u; injection H as <-; auto.
  - destruct H as (u & w & -> & H). pose proof (Forall_inv F) as F1. pose proof (Forall_inv (Forall_inv_tail F)) as F2. cbn [snd] in *.
    unfold rel_fn in H. destruct (is_inf u || is_inf w || is_undefined u || is_undefined w); [discriminate|]. binv H. destruct x as [v|]; [injection H as <-; exact Logic.I|].
    destruct o; try (injection H as <-; cbn; auto; fail). binv H. destruct x; injection H as <-; cbn; auto.
Qed.
End Logs.

Lemma square_pow vb z : z <> 0%Z ->
  refines (if (0 <? z)%Z then vsquare (Rv 1) vb (Z.to_pos (Z.abs z)) else vpow (vsquare (Rv 1) vb (Z.to_pos (Z.abs z))) (Rv (-1))) (vpow vb (Rv (IZR z))).
Proof.
  intros Nz. set (p := Z.to_pos (Z.abs z)). assert (Ep : Z.pos p = Z.abs z) by (apply Z2Pos.id; lia).
  assert (E : forall x, powerRZ x (Z.pos p) = x ^ Pos.to_nat p) by reflexivity. clearbody p.
  destruct (Z.ltb_spec 0 z) as [L|L].
  - rewrite Z.abs_eq in Ep by lia. destruct vb as [x| |]; [|rewrite vpow_fin by (apply (IZR_lt 0); lia); rewrite vsquare_fin by (right; exists 1; split; [auto|lra]); discriminate|apply refines_top].
    rewrite vsquare_real, <- E, Ep, Rmult_1_l. destruct (Req_EM_T x 0) as [->|Nx].
    + rewrite vpow_0_int, powerRZ_zero by lia. reflexivity.
    + rewrite vpow_int by auto. reflexivity.
  - assert (Ez : z = (- Z.pos p)%Z) by lia. assert (Hz : IZR z < 0) by (apply (IZR_lt z 0); lia).
    destruct vb as [x| |]; [|rewrite vpow_fin_top by lra; apply refines_top|apply refines_top].
    rewrite vsquare_real, <- E, Rmult_1_l. destruct (Req_EM_T x 0) as [->|Nx].
    + rewrite vpow_zero_top by lra. apply refines_top.
    + rewrite (vpow_int x z) by auto. rewrite (vpow_int _ (-1)) by (apply powerRZ_NOR; auto). rewrite <- powerRZ_powerRZ by auto. subst z. apply refines_eq. f_equal. f_equal. lia.
Qed.
Lemma half_pow vb z : Z.odd z = true -> (vpow vb (Rv (IZR z / 2)) = Fin -> (0 < z)%Z) ->
  refines (vpow (vpow vb (Rv (/ 2))) (Rv (IZR z))) (vpow vb (Rv (IZR z / 2))).
Proof.
  intros Oz Hf. assert (Nz : z <> 0%Z) by (intros ->; discriminate).
  assert (NI : ~ is_integer_R (IZR z / 2)).
  { intros [q Hq]. assert (IZR z = IZR (2 * q)) by (rewrite mult_IZR; lra). apply eq_IZR in H. subst. rewrite Z.odd_mul in Oz. discriminate. }
  assert (NH : ~ is_integer_R (/ 2)).
  { intros [q Hq]. assert (IZR 1 = IZR (2 * q)) by (rewrite mult_IZR; lra). apply eq_IZR in H. lia. }
  destruct vb as [x| |].
  - destruct (Rtotal_order x 0) as [L|[->|L]].
    + rewrite (vpow_neg_nonint x (IZR z / 2)) in Hf |- * by auto. specialize (Hf eq_refl). rewrite (vpow_neg_nonint x (/ 2)) by auto. rewrite vpow_fin by (apply (IZR_lt 0); lia). discriminate.
    + rewrite (vpow_zero (/ 2)) by lra. destruct (Z_lt_le_dec 0 z) as [P|P].
      * assert (0 < IZR z) by (apply (IZR_lt 0); lia). rewrite !vpow_zero by lra. reflexivity.
      * assert (IZR z <= 0) by (apply (IZR_le z 0); lia). rewrite (vpow_zero_top (IZR z / 2)) by lra. apply refines_top.
    + rewrite (vpow_pos x (/ 2)) by auto. rewrite vpow_pos by apply exp_pos. rewrite vpow_pos by auto. rewrite Rpower_mult. apply refines_eq. f_equal. f_equal. lra.
  - destruct (Z_lt_le_dec 0 z) as [P|P].
    + assert (0 < IZR z) by (apply (IZR_lt 0); lia). rewrite !vpow_fin by lra. discriminate.
    + assert (IZR z <= 0) by (apply (IZR_le z 0); lia). rewrite (vpow_fin_top (IZR z / 2)) by lra. apply refines_top.
  - apply refines_top.
Qed.

(** ** Runs *)
Section Run.
Context (I : impl) (HI : impl_ok I) (n : nat) (s : env) (Henv : env_ok s) (e0 : expr).
Notation V := (dist_visit I n).
Hypothesis Hd : forall x, visited V e0 x -> distributes s x.

Definition good (a d : expr) : Prop := sound_pair s (a, d) /\ logs_large s d.

Section Step.
Variable k : nat.
Hypothesis IHk : forall p b, visited V e0 p -> shaped p -> logs_large s p -> run_plain V k p = Ok b -> good p b.
Notation go := (go_plain V k).

Definition within (w : work) : Prop := forall x, asked V w x -> visited V e0 x.
Lemma within_ask x f d : within (Ask x f) -> run_plain V k x = Ok d -> visited V e0 x /\ within (f d).
Proof. intros W H. split; [apply W; constructor|]. intros y Hy. apply W. econstructor; eauto. Qed.

Definition fine (a : expr) : Prop := shaped a /\ logs_large s a.
Definition fit (a : expr) : Prop := wf s a /\ logs_large s a.
Lemma ask_run x f d : fine x -> within (Ask x f) -> go (Ask x f) = Ok d -> exists u, good x u /\ go (f u) = Ok d /\ within (f u).
Proof. intros [S L] W H. cbn [go_plain] in H. binv H. destruct (within_ask _ _ _ W E) as [A B]. exists x0. split; auto. Qed.

Lemma ask_all_run l : Forall fine l -> forall K d, within (ask_all l K) -> go (ask_all l K) = Ok d ->
  exists ds, Forall2 good l ds /\ go (K ds) = Ok d /\ within (K ds).
Proof.
  induction 1 as [|a l Ha _ IH]; intros K d W H; cbn [ask_all] in *; [exists []; auto|].
  destruct (ask_run _ _ _ Ha W H) as (u & G & H1 & W1). destruct (IH _ _ W1 H1) as (ds & Gs & H2 & W2). exists (u :: ds). auto.
Qed.
Lemma andthen_run o K d : go (andthen o K) = Ok d -> exists v, o = Ok v /\ andthen o K = K v.
Proof. destruct o; cbn; try discriminate. eauto. Qed.

Definition product_of (p : expr * expr) (b : expr) : Prop := sound s b (vmul (eval s (fst p)) (eval s (snd p))) /\ logs_large s b.
Lemma products_run ps : Forall (fun p => fit (fst p) /\ fit (snd p)) ps -> forall K d, within (products I n ps K) -> go (products I n ps K) = Ok d ->
  exists ds, Forall2 product_of ps ds /\ go (K ds) = Ok d /\ within (K ds).
Proof.
  induction 1 as [|[x y] l [[W1 L1] [W2 L2]] _ IH]; intros K d W H; cbn [products] in *; [exists []; auto|].
  destruct (andthen_run _ _ _ H) as (p & Ep & E). rewrite E in W, H. clear E. cbn [fst snd] in *.
  pose proof (e_mul2_sound I HI s Henv n _ _ _ W1 W2 Ep) as S. pose proof (Q_e_mul2 I HI _ (logs_closed s) n _ _ _ L1 L2 Ep) as L.
  destruct (has_sum p).
  - destruct (ask_run p _ _ (conj (wf_shaped _ _ (proj1 S)) L) W H) as (u & [[Su _] Lu] & H1 & W3). cbn [fst snd] in *.
    destruct (IH _ _ W3 H1) as (ds & Gs & H2 & W4). exists (u :: ds). split; auto. constructor; auto. split; auto.
    eapply sound_weaken; [exact Su|]. apply S.
  - destruct (IH _ _ W H) as (ds & Gs & H2 & W4). exists (p :: ds). split; auto. constructor; auto. split; auto.
Qed.

Lemma terms_fit a : fit a -> Forall fit (terms_of a) /\ vsum (map (eval s) (terms_of a)) = eval s a.
Proof.
  intros [W L]. assert (D : Forall fit [a] /\ vsum (map (eval s) [a]) = eval s a) by (split; [constructor; [split; auto|constructor]|apply vsum_one]).
  destruct a; cbn [terms_of]; try exact D. clear D. split; [|reflexivity].
  apply wf_children in W. apply logs_large_children in L. cbn [children] in *. rewrite Forall_forall in *. intros x Hx. split; auto.
Qed.

Lemma dist2_run a b K d va vb : fit a -> fit b -> refines (eval s a) va -> refines (eval s b) vb -> within (dist2 I n a b K) -> go (dist2 I n a b K) = Ok d ->
  exists r, fit r /\ (~ clash va vb -> refines (eval s r) (vmul va vb)) /\ go (K r) = Ok d /\ within (K r).
Proof.
  intros Fa Fb Ra Rb W H. unfold dist2 in *. destruct (terms_fit a Fa) as [Ta Va], (terms_fit b Fb) as [Tb Vb].
  destruct (products_run (list_prod (terms_of a) (terms_of b))) with (K := fun ts => andthen (e_add I n ts) K) (d := d) as (ds & Gs & H1 & W1); auto.
  { rewrite Forall_forall in *. intros [x y] Hin. apply in_prod_iff in Hin. split; [apply Ta|apply Tb]; tauto. }
  destruct (andthen_run _ _ _ H1) as (r & Er & E). rewrite E in H1, W1. exists r.
  assert (F : Forall fit ds /\ Forall2 refines (map (eval s) ds) (map (fun p => vmul (fst p) (snd p)) (map (fun p => (eval s (fst p), eval s (snd p))) (list_prod (terms_of a) (terms_of b))))).
  { clear - Gs. induction Gs as [|p c ps ds [[W R] L] _ [IH1 IH2]]; cbn; split; constructor; auto. split; auto. }
  destruct F as [F1 F2]. assert (S : sound s r (vsum (map (eval s) ds))).
  { apply (add_sound I HI s Henv n); auto. rewrite Forall_forall in *. intros x Hx. now apply F1. }
  split; [|split; [|auto]].
  - split; [apply S|]. eapply Q_e_add; [exact HI|apply logs_closed| |exact Er]. rewrite Forall_forall in *. intros x Hx. now apply F1.
  - intros Nc. eapply refines_trans; [apply S|]. eapply refines_trans; [apply vsum_mono, F2|]. rewrite <- list_prod_map.
    apply pairs_value; auto; [rewrite Va|rewrite Vb]; auto.
Qed.

Lemma factors_run : forall l vs K d, Forall2 (fun a v => fit a /\ refines (eval s a) v) l vs -> within (dist_factors I n l K) -> go (dist_factors I n l K) = Ok d ->
  exists r, fit r /\ (clashless vs -> refines (eval s r) (vprod vs)) /\ go (K r) = Ok d /\ within (K r).
Proof.
  intros l vs K d F. revert K d. induction F as [|a v l vs [Fa Ra] F IH]; intros K d W H; [discriminate|].
  destruct l as [|b l].
  - inversion F; subst. exists a. cbn [dist_factors] in *. split; auto. split; auto. intros _. rewrite vprod_one. auto.
  - change (dist_factors I n (a :: b :: l) K) with (dist_factors I n (b :: l) (fun r => dist2 I n a r K)) in *.
    destruct (IH _ _ W H) as (r & Fr & Rr & H1 & W1).
    destruct (classic_clashless vs) as [C|C].
    + destruct (dist2_run a r K d v (vprod vs) Fa Fr Ra (Rr C) W1 H1) as (q & Fq & Rq & H2 & W2). exists q. split; auto. split; auto.
      intros [C1 C2]. rewrite vprod_cons. auto.
    + destruct (dist2_run a r K d v Top Fa Fr Ra (refines_top _) W1 H1) as (q & Fq & Rq & H2 & W2). exists q. split; auto. split; auto.
      intros [C1 C2]. contradiction.
Qed.

Lemma power_run p : forall r b vr vb K d, fit r -> fit b -> refines (eval s r) vr -> refines (eval s b) vb -> calm vr vb ->
  within (dist_power I n r b p K) -> go (dist_power I n r b p K) = Ok d ->
  exists q, fit q /\ refines (eval s q) (vsquare vr vb p) /\ go (K q) = Ok d /\ within (K q).
Proof.
  induction p as [p IH|p IH|]; intros r b vr vb K d Fr Fb Rr Rb C W H; cbn [dist_power vsquare] in *;
    destruct (calm_clash _ _ C) as [N1 N2]; destruct (calm_square _ _ C) as [C1 C2].
  - destruct (dist2_run r b _ d vr vb Fr Fb Rr Rb W H) as (r' & Fr' & Rr' & H1 & W1).
    destruct (dist2_run b b _ d vb vb Fb Fb Rb Rb W1 H1) as (b' & Fb' & Rb' & H2 & W2).
    apply (IH r' b'); auto.
  - destruct (dist2_run b b _ d vb vb Fb Fb Rb Rb W H) as (b' & Fb' & Rb' & H2 & W2). apply (IH r b'); auto.
  - destruct (dist2_run r b _ d vr vb Fr Fb Rr Rb W H) as (r' & Fr' & Rr' & H1 & W1). exists r'. auto.
Qed.

Lemma signed_run b z d vb : fit b -> refines (eval s b) vb -> within (dist_signed I n b (Z.abs z) z) -> go (dist_signed I n b (Z.abs z) z) = Ok d ->
  sound s d (vpow vb (Rv (IZR z))) /\ logs_large s d.
Proof.
  intros Fb Rb W H. destruct (Z.eq_dec z 0) as [->|Nz]; [discriminate|]. pose proof (square_pow vb z Nz) as S.
  unfold dist_signed, dist_power_abs in *. destruct (Z.abs z) as [|p|p] eqn:Ep; [lia| |lia]. cbn [Z.to_pos] in S.
  assert (Fo : fit (EInt 1)) by (split; [cbn; unfold_range; lia|exact Logic.I]).
  assert (C : calm (Rv 1) vb).
  { destruct vb as [x| |]; [left; eauto|right; left; split; auto; right; exists 1; split; [auto|lra]|right; right; auto]. }
  destruct (power_run p (EInt 1) b (Rv 1) vb _ d Fo Fb (refines_refl _) Rb C W H) as (q & [Wq Lq] & Rq & H1 & _).
  destruct (0 <? z)%Z; cbn [go_plain] in H1.
  - injection H1 as <-. split; auto. split; auto. eapply refines_trans; eauto.
  - split.
    + eapply sound_weaken; [apply (e_pow_sound I HI s Henv n); [exact Wq| |exact H1]; cbn; unfold_range; lia|]. eapply refines_trans; [|exact S]. apply vpow_mono; [exact Rq|apply refines_refl].
    + eapply Q_e_pow; [exact HI|apply logs_closed| | |exact H1]; auto. exact Logic.I.
Qed.

Lemma ck_abs_Ok z m : in_i64 z -> ck_abs z = Ok m -> m = Z.abs z.
Proof. intros Hz H. apply ck_abs_inv in H; tauto. Qed.

Lemma pow_run b x b' x' d : visited V e0 (EPow b x) -> good b b' -> good x x' -> within (dist_pow I n b' x') -> go (dist_pow I n b' x') = Ok d ->
  sound s d (eval s (EPow b x)) /\ logs_large s d.
Proof.
  intros Hv [[[Wb Rb] _] Lb] [[[Wx Rx] _] Lx] W H. cbn [fst snd] in *. pose proof (Hd _ Hv) as Hd'. cbn [distributes] in Hd'.
  assert (D : go (Answer (e_pow I n b' x')) = Ok d -> sound s d (eval s (EPow b x)) /\ logs_large s d).
  { clear H. intros H. cbn [go_plain] in H. split.
    - eapply sound_weaken; [apply (e_pow_sound I HI s Henv n); [exact Wb|exact Wx|exact H]|]. apply vpow_mono; auto.
    - eapply Q_e_pow; [exact HI|apply logs_closed| | |exact H]; auto. }
  unfold dist_pow in *. destruct b' as [| | | | | | | | |l| | | | | | | | | | |]; try exact (D H).
  destruct x' as [|z|q| | | | | | | | | | | | | | | | | |]; try exact (D H); clear D.
  - destruct (ck_abs z) as [m| | | |] eqn:Em; try discriminate. apply ck_abs_Ok in Em; [|exact Wx]. subst m.
    destruct (signed_run _ _ _ _ (conj Wb Lb) Rb W H) as [S L]. split; auto. eapply sound_weaken; [exact S|].
    cbn [eval]. apply vpow_mono; [apply refines_refl|exact Rx].
  - destruct Wx as [Cq Nq]. destruct (den q =? 2)%Z eqn:Ed; [|].
    2: { cbn [go_plain] in H. split.
      - eapply sound_weaken; [apply (e_pow_sound I HI s Henv n); [exact Wb| |exact H]|]; [split; auto|apply vpow_mono; auto].
      - eapply Q_e_pow; [exact HI|apply logs_closed| | |exact H]; auto. }
    apply Z.eqb_eq in Ed. destruct (ck_abs (num q)) as [m| | | |] eqn:Em; try discriminate. apply ck_abs_Ok in Em; [|apply Cq]. subst m.
    destruct (1 <? Z.abs (num q))%Z.
    2: { cbn [go_plain] in H. split.
      - eapply sound_weaken; [apply (e_pow_sound I HI s Henv n); [exact Wb| |exact H]|]; [split; auto|apply vpow_mono; auto].
      - eapply Q_e_pow; [exact HI|apply logs_closed| | |exact H]; auto. }
    destruct (andthen_run _ _ _ H) as (r & Er & E). rewrite E in W, H. clear E.
    pose proof (sqrt_sound I HI s Henv n _ _ Wb Er) as [Wr Rr].
    assert (Lr : logs_large s r) by (eapply Q_sqrt; [exact HI|apply logs_closed| |exact Er]; exact Lb).
    assert (Rr' : refines (eval s r) (vpow (eval s b) (Rv (/ 2)))) by (eapply refines_trans; [exact Rr|apply vpow_mono; [exact Rb|apply refines_refl]]).
    destruct (signed_run _ _ _ _ (conj Wr Lr) Rr' W H) as [S L]. split; auto. eapply sound_weaken; [exact S|].
    cbn [eval] in Rx, Hd' |- *. unfold rat_val in Rx. rewrite Ed in Rx.
    destruct (eval s x) as [y| |] eqn:Ex; [|rewrite vpow_fin_r; apply refines_top|rewrite vpow_top_r; apply refines_top].
    injection Rx as <-. apply half_pow.
    + destruct Cq as (_ & G & _). rewrite Ed in G. destruct (Z.odd (num q)) eqn:O; auto. rewrite <- Z.negb_even, negb_false_iff in O.
      apply Z.even_spec in O. destruct O as [t Ht].
      assert (Z.divide 2 (Z.gcd (num q) 2)) as [u Hu] by (apply Z.gcd_greatest; [exists t; lia|exists 1%Z; lia]). lia.
    + intros Hf. destruct (Hd' Hf) as (y & Hy & P). injection Hy as <-. apply lt_IZR. lra.
Qed.

Lemma good_fit a d : good a d -> fit d /\ refines (eval s d) (eval s a).
Proof. intros [[[W R] _] L]. split; [split|]; auto. Qed.

Lemma map_visit_run e d : fine e -> within (map_visit I n e) -> go (map_visit I n e) = Ok d ->
  exists ps, Forall (fun p => good (fst p) (snd p)) ps /\ rebuilt I n e ps d.
Proof.
  intros [Sh Lo] W H. apply shaped_children in Sh. apply logs_large_children in Lo.
  assert (F : Forall fine (children e)) by (rewrite Forall_forall in *; intros x Hx; split; auto). clear Sh Lo.
  assert (Ls : forall l K, children e = l -> map_visit I n e = ask_all l K -> exists ds, Forall2 good l ds /\ go (K ds) = Ok d).
  { intros l K E1 E2. rewrite E1 in F. rewrite E2 in W, H. destruct (ask_all_run l F K d W H) as (ds & A & B & _). eauto. }
  assert (Lp : forall l ds, Forall2 good l ds -> exists ps, Forall (fun p => good (fst p) (snd p)) ps /\ l = map fst ps /\ ds = map snd ps).
  { clear. induction 1 as [|a b l ds G _ (ps & A & B & C)]; [exists []; auto|]. exists ((a, b) :: ps). cbn. subst. repeat split; auto. }
  destruct e; cbn [map_visit children rebuilt] in *.
  all: try (injection H as <-; exists []; split; auto; fail).
  all: try (destruct (Ls _ _ eq_refl eq_refl) as (ds & A & B); destruct (Lp _ _ A) as (ps & P & -> & ->); cbn [go_plain] in B; exists ps; split; auto; split; auto; now injection B).
  all: clear Ls Lp.
  all: pose proof (Forall_inv F) as F1; destruct (ask_run _ _ _ F1 W H) as (u & G1 & H1 & W1); clear W H.
  all: try (cbn [go_plain] in H1; eexists [(_, u)]; split; [constructor; [exact G1|constructor]|eauto]; fail).
  all: try (pose proof (Forall_inv (Forall_inv_tail F)) as F2; destruct (ask_run _ _ _ F2 W1 H1) as (w & G2 & H2 & W2);
    cbn [go_plain] in H2; eexists [(_, u); (_, w)]; split; [apply Forall_cons; [exact G1|apply Forall_cons; [exact G2|constructor]]|eauto]; fail).
  - pose proof (Forall_inv (Forall_inv_tail F)) as F2. pose proof (Forall_inv (Forall_inv_tail (Forall_inv_tail F))) as F3.
    assert (K : forall W1 : within (Ask e2 (fun x => Ask e3 (fun y => Answer (cond_fn u x y)))), go (Ask e2 (fun x => Ask e3 (fun y => Answer (cond_fn u x y)))) = Ok d ->
      exists ps, Forall (fun p => good (fst p) (snd p)) ps /\ (ps = [(e1, EBool true); (e2, d)] \/ ps = [(e1, EBool false); (e3, d)] \/
      exists u x y, ps = [(e1, u); (e2, x); (e3, y)] /\ cond_fn u x y = Ok d)).
    { clear H1 W1. intros W1 H1. destruct (ask_run _ _ _ F2 W1 H1) as (x & G2 & H2 & W2). destruct (ask_run _ _ _ F3 W2 H2) as (y & G3 & H3 & W3). cbn [go_plain] in H3.
      exists [(e1, u); (e2, x); (e3, y)]. split; [apply Forall_cons; [exact G1|apply Forall_cons; [exact G2|apply Forall_cons; [exact G3|constructor]]]|]. right; right. eauto 6. }
    destruct u; try exact (K W1 H1). clear K. destruct b.
    + destruct (ask_run _ _ _ F2 W1 H1) as (x & G2 & H2 & W2). cbn [go_plain] in H2. injection H2 as ->. eexists. split; [|left; reflexivity]. apply Forall_cons; [exact G1|apply Forall_cons; [exact G2|constructor]].
    + destruct (ask_run _ _ _ F3 W1 H1) as (x & G2 & H2 & W2). cbn [go_plain] in H2. injection H2 as ->. eexists. split; [|right; left; reflexivity]. apply Forall_cons; [exact G1|apply Forall_cons; [exact G2|constructor]].
  - pose proof (Forall_inv (Forall_inv_tail F)) as F2. pose proof (Forall_inv (Forall_inv_tail (Forall_inv_tail F))) as F3.
    destruct (ask_run _ _ _ F2 W1 H1) as (x & G2 & H2 & W2). destruct (ask_run _ _ _ F3 W2 H2) as (y & G3 & H3 & W3). cbn [go_plain] in H3.
    exists [(e1, u); (e2, x); (e3, y)]. split; [apply Forall_cons; [exact G1|apply Forall_cons; [exact G2|apply Forall_cons; [exact G3|constructor]]]|]. eauto 6.
Qed.

Lemma visit_run e d : visited V e0 e -> fine e -> go (V e) = Ok d -> good e d.
Proof.
  intros Hv [Sh Lo] H. assert (W : within (V e)) by (intros x Hx; econstructor; eauto).
  assert (D : V e = map_visit I n e -> good e d).
  { intros E. rewrite E in W, H. destruct (map_visit_run e d (conj Sh Lo) W H) as (ps & P & Rb).
    assert (Forall (sound_pair s) ps) by (eapply Forall_impl; [|exact P]; intros [a b] [A _]; exact A).
    split; [eapply rebuilt_sound; eauto|]. eapply rebuilt_logs; [exact HI|exact Lo| | |exact Rb]; auto. eapply Forall_impl; [|exact P]. intros [a b] [_ A]. exact A. }
  destruct e as [| | | | | | | |l| |b x| | | | | | | | | |]; try (apply D; reflexivity); clear D.
  - destruct l as [|a l]; [discriminate|].
    change (V (EMul (a :: l))) with (ask_all (a :: l) (fun ds => dist_factors I n ds (fun d => Answer (Ok d)))) in W, H. set (m := a :: l) in *.
    assert (F : Forall fine m).
    { apply shaped_children in Sh. apply logs_large_children in Lo. cbn [children] in *. rewrite Forall_forall in *. intros x Hx. split; auto. }
    destruct (ask_all_run m F _ d W H) as (ds & G & H1 & W1).
    destruct (factors_run ds (map (eval s) m) (fun d => Answer (Ok d)) d) as (r & [Wr Lr] & Rr & H2 & _).
    { clear - G. induction G; cbn; constructor; auto. destruct (good_fit _ _ H). auto. }
    { exact W1. }
    { exact H1. }
    cbn [go_plain] in H2. injection H2 as ->. split; [|exact Lr]. split; [|discriminate]. cbn [fst snd]. split; [exact Wr|].
    cbn [eval]. destruct (clashless_cases (map (eval s) m)) as [C|[[E|E] X]].
    + auto.
    + exfalso. pose proof (Hd _ Hv E) as Hd'. clear - Hd' X. apply Exists_exists in X. destruct X as (v & Hin & X). apply in_map_iff in Hin. destruct Hin as (a' & <- & Hin).
      rewrite Forall_forall in Hd'. destruct (Hd' _ Hin) as (y & Hy). destruct X; congruence.
    + rewrite E. apply refines_top.
  - change (V (EPow b x)) with (Ask b (fun b' => Ask x (fun x' => dist_pow I n b' x'))) in W, H. destruct Sh as [S1 S2], Lo as [L1 L2].
    destruct (ask_run _ _ _ (conj S1 L1) W H) as (u & G1 & H1 & W1). destruct (ask_run _ _ _ (conj S2 L2) W1 H1) as (w & G2 & H2 & W2).
    destruct (pow_run b x u w d Hv G1 G2 W2 H2) as [S L]. split; [|exact L]. split; [exact S|discriminate].
Qed.
End Step.

Lemma run_good k : forall e d, visited V e0 e -> shaped e -> logs_large s e -> run_plain V k e = Ok d -> good e d.
Proof.
  induction k as [|k IH]; intros e d Hv Sh Lo H; [discriminate|]. rewrite (plain_S V) in H. eapply visit_run; [exact IH|exact Hv| |exact H]. split; auto.
Qed.
End Run.

Lemma asks_visited (visit : expr -> work) (P : expr -> Prop) w : (forall x, asked visit w x -> P x) -> asks visit P w.
Proof.
  induction w as [r|x f IH]; intros H; cbn; [exact Logic.I|]. split; [apply H; constructor|]. intros k d E. apply IH. intros y Hy. apply H. econstructor; eauto.
Qed.
