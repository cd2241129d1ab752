(** Proofs about the plain text of expressions. *)
From Coq Require Import String Ascii List Arith ZArith Reals Bool Lia Lra Permutation.
From Flocq Require Import IEEE754.BinarySingleNaN.
From Verif Require Import Outcome CheckedIntModel RationalModel IntFloatModel ExprModel BuildModel FuncModel DerivModel CollectModel CustomTypeModel
  ExprSpec OrderSpec LowerSpec NumProofs ExprProofs ValProofs OrderProofs SumProofs BuildProofs FuncProofs MapProofs ClosureProofs LowerSortProofs
  LowerProofs CustomTypeProofs CppSpec PySpec PyParse PlainModel PlainSpec PlainLex.
From Verif Require AstModel AstProofs CppParse.
Import ListNotations.
Open Scope string_scope.
Open Scope nat_scope.

Lemma F2_length {A B} (R : A -> B -> Prop) l m : Forall2 R l m -> List.length l = List.length m.
Proof. induction 1; cbn; congruence. Qed.

(** ** Sorting *)
Lemma key_insert_perm x l : forall l', key_insert x l = Ok l' -> Permutation (x :: l) l'.
Proof.
  induction l as [|y l IH]; intros l' H; cbn [key_insert] in H.
  - injection H as <-. apply Permutation_refl.
  - binv H. destruct x0.
    + binv H. injection H as <-. apply IH in E0. eapply perm_trans; [apply perm_swap|]. now constructor.
    + injection H as <-. apply Permutation_refl.
Qed.
Lemma key_sort_perm l : forall l', key_sort l = Ok l' -> Permutation l l'.
Proof.
  induction l as [|x l IH]; intros l' H; cbn [key_sort] in H.
  - injection H as <-. constructor.
  - binv H. apply key_insert_perm in H. eapply perm_trans; [|exact H]. constructor. now apply IH.
Qed.
Lemma sorted_terms_perm I l l' : sorted_terms I l = Ok l' -> Permutation l l'.
Proof.
  intros H. unfold sorted_terms in H. binv H. binv H. injection H as <-.
  assert (map snd x = l) as <-.
  { clear E0. revert x E. induction l as [|a l IH]; intros x E; cbn [AstModel.mapM] in E.
    - injection E as <-. reflexivity.
    - binv E. binv E. injection E as <-. unfold add_key in E0. binv E0. injection E0 as <-. cbn [map snd]. f_equal. auto. }
  apply Permutation_map. now apply key_sort_perm.
Qed.
Lemma sorted_factors_perm l l' : sorted_factors l = Ok l' -> Permutation l l'.
Proof.
  intros H. unfold sorted_factors in H. binv H. injection H as <-. apply key_sort_perm in E.
  apply (Permutation_map snd) in E. rewrite map_map in E. cbn [snd] in E. now rewrite map_id in E.
Qed.

(** ** Values *)
Lemma vneg_mono a b : refines a b -> refines (vneg a) (vneg b).
Proof. destruct b; cbn; auto; [intros ->; reflexivity|]. destruct a; cbn; congruence. Qed.
Lemma vneg_opp a : vneg a = vmul (Rv (-1)) a.
Proof. destruct a as [x| |]; cbn; auto; [f_equal; ring|]. destruct (Req_EM_T (-1) 0); [lra|reflexivity]. Qed.
Lemma vneg_vneg a : vneg (vneg a) = a.
Proof. destruct a; cbn; auto. f_equal. ring. Qed.

Lemma shows_trans I n a b c : shows I n a b -> shows I n b c -> shows I n a c.
Proof.
  intros H K. induction K as [e|e c d K IH Hd|e c k m K IH Hk|e l t t' K IH Ht Hn|e p x x' K IH Hx Hn].
  - assumption.
  - exact (sh_child I n a c d (IH H) Hd).
  - exact (sh_rest I n a c k m (IH H) Hk).
  - exact (sh_term I n a l t t' (IH H) Ht Hn).
  - exact (sh_exponent I n a p x x' (IH H) Hx Hn).
Qed.
Lemma powers_fine_shows I n s e d : powers_fine I n s e -> shows I n e d -> powers_fine I n s d.
Proof. intros H K b x Hs. apply H. eapply shows_trans; eauto. Qed.

Lemma shows_one I n e d : shows I n e d -> e = EInt 1 -> d = EInt 1.
Proof.
  intros K. induction K as [e|e c d K IH Hd|e c k m K IH Hk|e l t t' K IH Ht Hn|e p x x' K IH Hx Hn]; intros H; specialize (IH H) || exact H.
  - subst c. destruct Hd.
  - subst c. cbn in Hk. now injection Hk as <- <-.
  - discriminate IH.
  - discriminate IH.
Qed.

Section Plain.
Variable I : impl.
Hypothesis HI : impl_ok I.
Variable n : nat.
Variable T : text_params.
Variable E : penv.
Variable s : env.
Hypothesis Henv : env_ok s.
Hypothesis HT : doubles_ok T.
Hypothesis HC : constants_named E.
Notation ev := (eval s).
Notation nm := (named T E s).
Notation pv := (pvalue E).

Lemma named_closed : closed nm.
Proof.
  constructor; try (intros; exact Logic.I); intros; cbn [named].
  - apply all_of_Forall.
  - apply all_of_Forall.
  - reflexivity.
  - apply all_of_Forall.
Qed.
Lemma named_children e : nm e -> Forall nm (children e).
Proof.
  destruct e; cbn [named children]; intros H; rewrite ?all_of_Forall in H; try (now constructor); try assumption.
  all: try (destruct H as [_ H]; now apply all_of_Forall in H); repeat constructor; tauto.
Qed.

Definition good (e : expr) : Prop := wf s e /\ nm e /\ powers_fine I n s e.
Lemma good_child e c : good e -> In c (children e) -> good c.
Proof.
  intros (W & N & P) H. split; [|split].
  - pose proof (wf_children s e W) as F. rewrite Forall_forall in F. auto.
  - pose proof (named_children e N) as F. rewrite Forall_forall in F. auto.
  - eapply powers_fine_shows; [exact P|]. eapply sh_child; [apply sh_refl|exact H].
Qed.
Lemma good_rest e c m : good e -> as_coeff_and_mul I e = Ok (c, m) -> good m.
Proof.
  intros (W & N & P) H. split; [|split].
  - now apply (as_coeff_and_mul_spec I s) in H as (_ & H & _).
  - now apply (Q_as_coeff I nm named_closed) in H as [_ H].
  - eapply powers_fine_shows; [exact P|]. eapply sh_rest; [apply sh_refl|exact H].
Qed.
Lemma good_term l a a' : good (EAdd l) -> In a l -> e_neg I n a = Ok a' -> good a' /\ refines (ev a') (vneg (ev a)).
Proof.
  intros G Ha H. pose proof (good_child _ a G Ha) as (W & N & _). destruct G as (_ & _ & P).
  pose proof (e_neg_sound I HI s Henv n a a' W H) as [W' V]. split; [split; [|split]|].
  - exact W'.
  - exact (Q_e_neg I HI nm named_closed n a a' N H).
  - eapply powers_fine_shows; [exact P|]. eapply sh_term; [apply sh_refl|exact Ha|exact H].
  - now rewrite vneg_opp.
Qed.
Lemma good_exponent b x x' : good (EPow b x) -> negative_exponent I x -> e_neg I n x = Ok x' ->
  good x' /\ refines (ev x') (vneg (ev x)).
Proof.
  intros G Hn H. pose proof (good_child _ x G ltac:(cbn; auto)) as (W & N & _). destruct G as (_ & _ & P).
  pose proof (e_neg_sound I HI s Henv n x x' W H) as [W' V]. split; [split; [|split]|].
  - exact W'.
  - exact (Q_e_neg I HI nm named_closed n x x' N H).
  - eapply powers_fine_shows; [exact P|]. eapply sh_exponent; [apply sh_refl|exact Hn|exact H].
  - now rewrite vneg_opp.
Qed.

(** ** The level at which the text of an expression is read *)
Definition lvl (e : expr) : nat :=
  match e with
  | EAdd _ => 1
  | EMul _ | ERat _ => 2
  | EInt z => if (z <? 0)%Z then 3 else 5
  | EFlt f => if Bsign f then 3 else 5
  | EPow _ x => if is_negative_one x then 2 else 3
  | ERel _ _ _ => 0
  | _ => 5
  end.
Definition text_at (k : nat) (str : string) (v : val) : Prop := exists t, written k str t /\ refines (pv t) v.
Definition self_ok (self : expr -> outcome string) : Prop :=
  (forall e str, good e -> self e = Ok str -> text_at (lvl e) str (ev e)) /\
  (forall f str, self (EFlt f) = Ok str -> str = t_double T f).

Lemma text_down k m str v : k <= m -> m <= 5 -> text_at m str v -> text_at k str v.
Proof. intros L B (t & W & R). exists t. split; auto. eapply written_down; eauto. Qed.
Lemma text_paren str v : text_at 0 str v -> text_at 5 ("(" ++ str ++ ")") v.
Proof. intros (t & W & R). exists t. split; auto. now apply written_paren. Qed.
Lemma text_refines k str v w : text_at k str v -> refines v w -> text_at k str w.
Proof. intros (t & W & R) H. exists t. split; auto. eapply refines_trans; eauto. Qed.
Lemma lvl_5 e : lvl e <= 5.
Proof. destruct e; cbn; try lia; [destruct (Bsign _)|destruct (_ <? _)%Z|destruct (is_negative_one _)]; lia. Qed.
Lemma flt_sign f : f64_lt f f64_zero = true -> Bsign f = true.
Proof. destruct f as [[]|[]| |[] m e B]; cbn; auto; discriminate. Qed.
Lemma dec_text z : text_at (if (z <? 0)%Z then 3 else 5) (AstModel.dec z) (Rv (IZR z)).
Proof.
  destruct (Z.ltb_spec z 0) as [L|L].
  - exists (PUn "-" (PNum (AstModel.dec (- z)))). split.
    + rewrite AstProofs.dec_neg by assumption. apply written_minus. apply (written_down 3 5); try lia. apply written_number. apply pdec_number. lia.
    + cbn [pvalue un_value String.eqb Ascii.eqb Bool.eqb]. rewrite dec_value. cbn. f_equal. rewrite opp_IZR. ring.
  - exists (PNum (AstModel.dec z)). split; [apply written_number; now apply pdec_number|]. cbn [pvalue]. rewrite dec_value. reflexivity.
Qed.
Lemma double_text f : exists w t, written 5 w t /\ t_double T f = (if Bsign f then "-" ++ w else w).
Proof.
  destruct (HT f) as (w & [H|H] & D); [exists w, (PNum w)|exists w, (PId w)]; (split; [|exact D]).
  - now apply written_number.
  - now apply written_name.
Qed.

Section Step.
Variable self : expr -> outcome string.
Hypothesis HS : self_ok self.

Lemma prec_text p k e str : good e -> format_precedence self p e = Ok str ->
  k <= 5 -> (p < get_precedence e -> k <= lvl e) -> text_at k str (ev e).
Proof.
  intros G H K L. unfold format_precedence in H. binv H. injection H as <-. apply (proj1 HS) in E0; [|assumption].
  destruct (Nat.leb_spec (get_precedence e) p) as [P|P].
  - apply (text_down k 5); auto. apply text_paren. apply (text_down 0 (lvl e)); auto using lvl_5. lia.
  - apply (text_down k (lvl e)); auto using lvl_5.
Qed.
Lemma prec_lvl e p k : p < get_precedence e -> 
  (p = 0 /\ k = 1) \/ (p = 1 /\ k = 2) \/ (p = 2 /\ k = 3 /\ forall c, e <> EPow c (EInt (-1))) \/ (p = 3 /\ k = 5 /\ (forall f, e <> EFlt f)) \/ (p = 3 /\ k = 3) ->
  k <= lvl e.
Proof.
  intros H. destruct e; cbn [get_precedence lvl] in *; unfold p_relational, p_addition, p_multiplication, p_power, p_none in *; try lia.
  - intros K. pose proof (flt_sign f). destruct (f64_lt f f64_zero); [rewrite H0 by reflexivity; lia|].
    destruct (Bsign f); [|lia]. decompose [and or] K; subst; try lia. match goal with X : forall f, _ <> _ |- _ => exfalso; eapply X; reflexivity end.
  - destruct (_ <? _)%Z; lia.
  - intros K. destruct (is_negative_one e2) eqn:N; [|lia].
    decompose [and or] K; subst; try lia. destruct e2; try discriminate N. cbn in N. apply Z.eqb_eq in N. subst. match goal with X : forall c, _ <> _ |- _ => exfalso; eapply X; reflexivity end.
Qed.

(** ** Powers *)
Lemma power_text b x str : good b -> good x -> format_power self b x = Ok str -> text_at 3 str (vpow (ev b) (ev x)).
Proof.
  intros Gb Gx H. unfold format_power in H. binv H. binv H. injection H as <-.
  assert (Px : text_at 3 x1 (ev x)) by (apply (prec_text p_power 3 x x1 Gx E1 ltac:(lia)); intros P; apply (prec_lvl x 3 3 P); tauto).
  destruct Px as (tx & Wx & Rx).
  destruct (match b with EFlt f => if Bsign f then negb (f64_lt f f64_zero) else false | _ => false end) eqn:Z.
  - destruct b; try discriminate Z. destruct (Bsign f) eqn:S; [|discriminate Z].
    unfold format_precedence in E0. binv E0. injection E0 as <-.
    apply (proj2 HS) in E2. subst x2. cbn [get_precedence]. apply negb_true_iff in Z. rewrite Z. cbn [Nat.leb p_none p_power].
    destruct (double_text f) as (w & t & W & ->). rewrite S. rewrite sapp_assoc. exists (PUn "-" (PBin "**" t tx)). split.
    + apply written_minus. apply (written_down 3 4); try lia. now apply written_pow.
    + exact Logic.I.
  - assert (Pb : text_at 5 x0 (ev b)).
    { unfold format_precedence in E0. binv E0. injection E0 as <-. apply (proj1 HS) in E2; [|assumption].
      destruct (Nat.leb_spec (get_precedence b) p_power) as [P|P].
      - apply text_paren. apply (text_down 0 (lvl b)); auto using lvl_5. lia.
      - enough (lvl b = 5) as <- by assumption. destruct b; cbn [get_precedence lvl] in *; unfold p_relational, p_addition, p_multiplication, p_power, p_none in *; try lia; try reflexivity.
        + destruct (Bsign f) eqn:B; [|reflexivity]. apply negb_false_iff in Z. rewrite Z in P. lia.
        + destruct (_ <? _)%Z; [|reflexivity]. lia. }
    destruct Pb as (tb & Wb & Rb). exists (PBin "**" tb tx). split.
    + apply (written_down 3 4); try lia. now apply written_pow.
    + cbn [pvalue]. unfold bin_value. cbn [String.eqb Ascii.eqb Bool.eqb]. now apply vpow_mono.
Qed.

(** ** Sums *)
Definition sign_of (first neg : bool) : string :=
  if first then (if neg then "-" else "") else (if neg then " - " else " + ").
Lemma term_text l first e str : good (EAdd l) -> In e l -> format_term I n self first e = Ok str ->
  exists (neg : bool) body t, str = sign_of first neg ++ body /\ written 2 body t /\ refines (if neg then vneg (pv t) else pv t) (ev e).
Proof.
  intros G Hin H. pose proof (good_child _ e G Hin) as Ge. unfold format_term in H. binv H. destruct x as [c m].
  pose proof (good_rest _ _ _ Ge E0) as Gm. destruct (as_coeff_and_mul_spec I s e c m E0 (proj1 Ge)) as (_ & _ & V & _).
  specialize (V s). cbv beta iota zeta in H.
  assert (forall d str, good d -> format_precedence self p_addition d = Ok str -> text_at 2 str (ev d)) as P.
  { intros d str' Gd Hd. apply (prec_text p_addition 2 d str' Gd Hd ltac:(lia)). intros P. apply (prec_lvl d 1 2 P). tauto. }
  destruct (is_negative_number c) eqn:Nc.
  - binv H. injection H as <-. exists true. destruct (is_negative_one c) eqn:N1.
    + destruct (P _ _ Gm E1) as (t & W & R). exists x, t. split; [reflexivity|]. split; [assumption|].
      destruct c; try discriminate N1. cbn in N1. apply Z.eqb_eq in N1. subst z. rewrite V. cbn [eval].
      rewrite <- vneg_opp. now apply vneg_mono.
    + binv E1. destruct (good_term l e x0 G Hin E2) as [G' R']. destruct (P _ _ G' E1) as (t & W & R).
      exists x, t. split; [reflexivity|]. split; [assumption|]. rewrite <- (vneg_vneg (ev e)). apply vneg_mono.
      eapply refines_trans; eauto.
  - binv H. injection H as <-. exists false. destruct (is_one c) eqn:N1.
    + destruct (P _ _ Gm E1) as (t & W & R). exists x, t. split; [reflexivity|]. split; [assumption|].
      destruct c; try discriminate N1. cbn in N1. apply Z.eqb_eq in N1. subst z. rewrite V. cbn [eval]. now rewrite vmul_1_l.
    + destruct (P _ _ Ge E1) as (t & W & R). exists x, t. auto.
Qed.
Lemma terms_text l : forall l' acc x r, good (EAdd l) -> incl l' l -> written 1 acc x -> format_terms I n self false l' = Ok r ->
  exists t, written 1 (acc ++ r) t /\ refines (pv t) (vadd (pv x) (vsum (map ev l'))).
Proof.
  induction l' as [|e l' IH]; intros acc x r G Hin W H; cbn [format_terms] in H.
  - injection H as <-. rewrite sapp_nil. exists x. split; [assumption|]. cbn. rewrite vadd_0_r. apply refines_refl.
  - binv H. binv H. injection H as <-.
    destruct (term_text l false e x0 G (Hin e (or_introl eq_refl)) E0) as (neg & body & t & -> & Wt & R).
    assert (exists t', written 1 (acc ++ sign_of false neg ++ body) t' /\ pv t' = vadd (pv x) (if neg then vneg (pv t) else pv t)) as (t' & W' & V').
    { destruct neg; eexists; (split; [first [apply written_sub|apply written_add]; eassumption|reflexivity]). }
    destruct (IH _ t' x1 G (fun y Hy => Hin y (or_intror Hy)) W' E1) as (t2 & W2 & R2).
    exists t2. split; [now rewrite <- sapp_assoc|]. eapply refines_trans; [exact R2|]. rewrite V', <- vadd_assoc. cbn [map]. rewrite vsum_cons.
    apply vadd_mono; [apply refines_refl|]. apply vadd_mono; [assumption|apply refines_refl].
Qed.
Lemma addition_text l str : good (EAdd l) -> format_addition I n self l = Ok str -> text_at 1 str (ev (EAdd l)).
Proof.
  intros G H. unfold format_addition in H. destruct (Nat.ltb_spec (List.length l) 2) as [L|L]; [discriminate|]. binv H.
  apply sorted_terms_perm in E0. cbn [eval]. rewrite (vsum_perm _ _ (Permutation_map ev E0)).
  assert (incl x l) as Hin by (intros y Hy; apply (Permutation_in y (Permutation_sym E0)); assumption).
  destruct x as [|e x]; [apply Permutation_length in E0; cbn in E0; lia|]. cbn [format_terms] in H. binv H. binv H. injection H as <-.
  destruct (term_text l true e x0 G (Hin e (or_introl eq_refl)) E1) as (neg & body & t & -> & Wt & R).
  assert (exists t', written 1 (sign_of true neg ++ body) t' /\ pv t' = (if neg then vneg (pv t) else pv t)) as (t' & W' & V').
  { destruct neg; cbn [sign_of].
    - destruct (written_negated E body t Wt) as (t' & W' & V'). exists t'. split; [|assumption]. apply (written_down 1 2); auto; lia.
    - exists t. split; [|reflexivity]. apply (written_down 1 2); auto; lia. }
  destruct (terms_text l x _ t' x1 G (fun y Hy => Hin y (or_intror Hy)) W' E2) as (t2 & W2 & R2).
  exists t2. split; [assumption|]. eapply refines_trans; [exact R2|]. rewrite V'. cbn [map]. rewrite vsum_cons.
  apply vadd_mono; [assumption|apply refines_refl].
Qed.

(** ** Products *)
Definition pval (q : part) : val :=
  match q with QInt z => Rv (IZR z) | QFlt _ => Top | QPow b x => vpow (ev b) (ev x) end.
Definition part_text (q : part) : Prop := forall str, format_element T self q = Ok str -> text_at 3 str (pval q).
Lemma elements_acc l : forall acc x r, l <> [] -> written 2 acc x -> Forall part_text l -> format_elements T self l = Ok r ->
  exists t, written 2 (acc ++ "*" ++ r) t /\ refines (pv t) (vmul (pv x) (vprod (map pval l))).
Proof.
  induction l as [|q l IH]; intros acc x r N W F H; [congruence|]. clear N.
  pose proof (Forall_inv F) as Fq. apply Forall_inv_tail in F.
  destruct l as [|q' l]; cbn [format_elements] in H.
  - destruct (Fq _ H) as (t & Wt & R). exists (PBin "*" x t). split; [now apply written_mul|]. cbn [map vprod fold_right].
    rewrite vmul_1_r. apply vmul_mono; [apply refines_refl|assumption].
  - binv H. binv H. injection H as <-. destruct (Fq _ E0) as (t & Wt & R).
    destruct (IH (acc ++ "*" ++ x0) (PBin "*" x t) x1 ltac:(discriminate) (written_mul _ _ _ _ W Wt) F E1) as (t2 & W2 & R2).
    exists t2. split; [now rewrite !sapp_assoc in *|]. eapply refines_trans; [exact R2|].
    change (pv (PBin "*" x t)) with (vmul (pv x) (pv t)). rewrite <- vmul_assoc. cbn [map]. rewrite vprod_cons.
    apply vmul_mono; [apply refines_refl|]. apply vmul_mono; [assumption|apply refines_refl].
Qed.
Lemma elements_text l str : l <> [] -> Forall part_text l -> format_elements T self l = Ok str -> text_at 2 str (vprod (map pval l)).
Proof.
  intros N F H. destruct l as [|q l]; [congruence|]. pose proof (Forall_inv F) as Fq. apply Forall_inv_tail in F.
  destruct l as [|q' l]; cbn [format_elements] in H.
  - destruct (Fq _ H) as (t & Wt & R). exists t. split; [apply (written_down 2 3); auto; lia|]. cbn. now rewrite vmul_1_r.
  - binv H. binv H. injection H as <-. destruct (Fq _ E0) as (t & Wt & R).
    destruct (elements_acc (q' :: l) x t x0 ltac:(discriminate) (written_down 2 3 _ _ ltac:(lia) ltac:(lia) Wt) F E1) as (t2 & W2 & R2).
    exists t2. split; [assumption|]. eapply refines_trans; [exact R2|]. cbn [map]. rewrite vprod_cons.
    apply vmul_mono; [assumption|apply refines_refl].
Qed.
Lemma int_part z : (0 <= z)%Z -> part_text (QInt z).
Proof.
  intros L str H. cbn in H. injection H as <-. pose proof (dec_text z) as D. destruct (Z.ltb_spec z 0); [lia|].
  apply (text_down 3 5); auto; lia.
Qed.
Lemma flt_part f : part_text (QFlt (Babs f)).
Proof.
  intros str H. cbn in H. injection H as <-. destruct (double_text (Babs f)) as (w & t & W & ->).
  replace (Bsign (Babs f)) with false by (destruct f; reflexivity). exists t. split; [apply (written_down 3 5); auto; lia|exact Logic.I].
Qed.
Lemma pow_part b x : good b -> good x -> (x = EInt 1 -> forall c, b <> EPow c (EInt (-1))) -> part_text (QPow b x).
Proof.
  intros Gb Gx N str H. cbn [format_element] in H. destruct (is_one x) eqn:X.
  - destruct x; try discriminate X. cbn in X. apply Z.eqb_eq in X. subst z. cbn [pval eval].
    apply (text_refines 3 str (ev b)); [|rewrite vpow_1_r; apply refines_refl].
    apply (prec_text p_multiplication 3 b str Gb H ltac:(lia)). intros P. apply (prec_lvl b 2 3 P).
    right; right; left. split; [reflexivity|]. split; [reflexivity|exact (N eq_refl)].
  - now apply power_text in H.
Qed.
Definition sgn (b : bool) : R := if b then (-1)%R else 1%R.
Lemma sgn_flip b : sgn (negb b) = (- sgn b)%R.
Proof. destruct b; cbn; ring. Qed.
Lemma vmul_rr N a b : vmul (vmul N (Rv a)) (Rv b) = vmul N (Rv (a * b)).
Proof. rewrite <- vmul_assoc. reflexivity. Qed.
Lemma abs_val z a : ck_abs z = Ok a -> (0 <= a)%Z /\ IZR z = (if (z <? 0)%Z then - IZR a else IZR a)%R.
Proof.
  unfold ck_abs. destruct (Z.ltb_spec z 0) as [L|L]; intros H.
  - unfold ck_neg in H. destruct (z =? _)%Z; [discriminate|]. unfold mach_neg, mach in H. destruct (in_i64b (- z)); [|discriminate]. injection H as <-. split; [lia|]. rewrite opp_IZR. ring.
  - injection H as <-. split; [lia|reflexivity].
Qed.
Lemma recip_part b x y : good (EPow b x) -> negative_exponent I x -> ev (EPow b x) = Rv y ->
  exists b' x', ev b = Rv b' /\ ev x = Rv x' /\ y <> 0%R /\ vpow (Rv b') (Rv (- x')) = Rv (/ y).
Proof.
  intros G Hn V. pose proof G as (W & _ & P). destruct (P b x (sh_refl _ _ _)) as [P1 _]. specialize (P1 Hn). destruct P1 as [_ P2].
  pose proof V as V0. cbn [eval] in V. destruct (ev b) as [b'| |] eqn:Vb; [| |discriminate V]; [|cbn in V; destruct (ev x); try discriminate V; destruct (Rlt_dec 0 x0); discriminate V].
  destruct (ev x) as [x'| |] eqn:Vx; try discriminate V. exists b', x'. split; [reflexivity|]. split; [reflexivity|].
  apply vpow_recip; [|assumption]. intros ->. destruct (is_num x) eqn:Nx; [|now apply P2].
  destruct Hn as (c & m & Hc & Nc). destruct (as_coeff_and_mul_spec I s x c m Hc) as (_ & _ & _ & _ & _ & K & _); [apply W|].
  destruct (K Nx) as [-> _]. assert (x' < 0)%R as L by (eapply (negative_num_val s); eauto; apply W).
  cbn in V. destruct (Rlt_dec 0 0); [lra|]. destruct (Req_EM_T 0 0); [|lra]. destruct (Rlt_dec 0 x'); [lra|discriminate].
Qed.

Definition state_ok (r : bool * list part * list part) : Prop := Forall part_text (snd (fst r)) /\ Forall part_text (snd r).
Definition state_val (r : bool * list part * list part) (d : R) (v : val) : Prop :=
  d <> 0%R /\ vprod (map pval (snd r)) = Rv d /\ vmul (vprod (map pval (snd (fst r)))) (Rv (sgn (fst (fst r)) * / d)) = v.
Lemma vprod_snoc l q : vprod (map pval (l ++ [q])) = vmul (vprod (map pval l)) (pval q).
Proof. rewrite map_app, vprod_app. cbn. now rewrite vmul_1_r. Qed.
Lemma factor_text e r r' : good e -> factor_part I n e r = Ok r' -> state_ok r ->
  state_ok r' /\ forall d v, state_val r d v -> ev e <> Top -> exists d', state_val r' d' (vmul v (ev e)).
Proof.
  intros G H [S1 S2]. destruct r as [[sign nu] de]. cbn [fst snd] in *.
  assert (K : forall b x, as_base_and_exp e = (b, x) -> is_num e = false ->
    (let* cm := as_coeff_and_mul I x in
      if is_negative_number (fst cm) then
        if is_negative_one x then Ok (sign, nu, de ++ [QPow b (EInt 1)])%list
        else let* m := e_neg I n x in Ok (sign, nu, de ++ [QPow b m])%list
      else Ok (sign, nu ++ [QPow b x], de)%list)%outcome = Ok r' ->
    state_ok r' /\ forall d v, state_val (sign, nu, de) d v -> ev e <> Top -> exists d', state_val r' d' (vmul v (ev e))).
  { clear H. intros b x Hbx Ne H. binv H. destruct x0 as [c m]. cbn [fst] in H.
    assert (Hne : is_negative_number c = true -> negative_exponent I x) by (intros; exists c, m; auto).
    assert (D : (e = EPow b x) \/ (b = e /\ x = EInt 1 /\ forall a c, e <> EPow a c)).
    { destruct e; cbn in Hbx; injection Hbx as <- <-; try (now left); right; split; auto; split; auto; discriminate. }
    assert (Gone : good (EInt 1)).
    { split; [|split]; [unfold wf, in_i64, INT64_MIN, INT64_MAX; lia|exact Logic.I|].
      intros b' x' Hs. apply shows_one in Hs; [|reflexivity]. discriminate. }
    destruct (is_negative_number c) eqn:Nc.
    - specialize (Hne eq_refl). destruct D as [->|(_ & -> & _)]; [|cbn in E0; injection E0 as <- <-; discriminate Nc].
      assert (Gb : good b) by (apply (good_child _ b G); cbn; auto).
      pose proof (proj2 (proj2 (proj2 G) b x (sh_refl _ _ _))) as Rb.
      assert (Fin' : forall m', (ev (EPow b x) <> Top -> forall y b' x', ev b = Rv b' -> ev x = Rv x' -> vpow (Rv b') (Rv (- x')) = Rv (/ y) -> pval (QPow b m') = Rv (/ y)) ->
        part_text (QPow b m') -> r' = (sign, nu, de ++ [QPow b m'])%list ->
        state_ok r' /\ forall d v, state_val (sign, nu, de) d v -> ev (EPow b x) <> Top -> exists d', state_val r' d' (vmul v (ev (EPow b x)))).
      { intros m' Hv Ht ->. split; [split; cbn [fst snd]; auto; apply Forall_app; auto|].
        intros d v (Hd & Vd & Vv) Nt. pose proof (proj1 (proj1 (proj2 (proj2 G) b x (sh_refl _ _ _)) Hne)) as Nf.
        destruct (ev (EPow b x)) as [y| |] eqn:Ve; [|congruence|congruence].
        destruct (recip_part b x y G Hne Ve) as (b' & x' & Vb & Vx & Ny & Vr).
        exists (d * / y)%R. unfold state_val in *. cbn [fst snd] in *. split; [|split].
        - apply Rmult_integral_contrapositive. split; auto. now apply Rinv_neq_0_compat.
        - rewrite vprod_snoc, Vd, (Hv ltac:(congruence) y b' x' Vb Vx Vr). reflexivity.
        - rewrite <- Vv, vmul_rr. do 2 f_equal. field. auto. }
      destruct (is_negative_one x) eqn:X1.
      + injection H as <-. destruct x; try discriminate X1. cbn in X1. apply Z.eqb_eq in X1. subst z.
        apply (Fin' (EInt 1)); [| |reflexivity].
        * intros _ y b' x' Vb Vx Vr. cbn [pval]. rewrite Vb. cbn [eval] in *. injection Vx as <-.
          now replace (- -1)%R with 1%R in Vr by ring.
        * apply pow_part; auto.
      + binv H. injection H as <-. destruct (good_exponent b x x0 G Hne E1) as [Gm Rm].
        apply (Fin' x0); [| |reflexivity].
        * intros _ y b' x' Vb Vx Vr. cbn [pval]. rewrite Vb. rewrite Vx in Rm. cbn in Rm. now rewrite Rm.
        * apply pow_part; auto. intros ->. apply Rb. auto.
    - injection H as <-. split.
      + split; cbn [fst snd]; auto. apply Forall_app. split; auto. constructor; [|constructor].
        destruct D as [->|(-> & -> & Np)].
        * apply pow_part; [apply (good_child _ b G); cbn; auto|apply (good_child _ x G); cbn; auto|].
          intros ->. apply (proj2 (proj2 (proj2 G) b (EInt 1) (sh_refl _ _ _))). auto.
        * apply pow_part; auto.
      + intros d v (Hd & Vd & Vv) Nt. exists d. unfold state_val in *. cbn [fst snd] in *. split; [|split]; auto.
        rewrite vprod_snoc. replace (pval (QPow b x)) with (ev e).
        * rewrite <- Vv. rewrite <- !vmul_assoc. f_equal. apply vmul_comm.
        * destruct D as [->|(-> & -> & _)]; [reflexivity|]. cbn [pval eval]. now rewrite vpow_1_r. }
  destruct e; try (apply (K _ _ eq_refl eq_refl H)); clear K; cbn [factor_part] in H.
  - (* doubles *) injection H as <-. split; [|intros d v _ N; now destruct N].
    split; cbn [fst snd]; auto. apply Forall_app. split; auto. constructor; [apply flt_part|constructor].
  - (* integers *) binv H. injection H as <-.
    assert (A : exists a, (0 <= a)%Z /\ IZR z = (if (z <? 0)%Z then - IZR a else IZR a)%R /\
      x = (if ((z =? 1) || (z =? -1))%Z then nu else (nu ++ [QInt a])%list) /\ ((z =? 1) || (z =? -1) = true -> a = 1)%Z).
    { destruct ((z =? 1) || (z =? -1))%Z eqn:Z1.
      - injection E0 as <-. exists 1%Z. split; [lia|]. split; [|auto]. apply orb_true_iff in Z1.
        destruct Z1 as [Z1|Z1]; apply Z.eqb_eq in Z1; subst z; cbn; ring.
      - binv E0. injection E0 as <-. apply abs_val in E1 as [A1 A2]. exists x0. repeat split; auto. discriminate. }
    destruct A as (a & A1 & A2 & -> & A3). split.
    + split; cbn [fst snd]; auto. destruct ((z =? 1) || (z =? -1))%Z; auto. apply Forall_app. split; auto.
      constructor; [now apply int_part|constructor].
    + intros d v (Hd & Vd & Vv) Nt. exists d. unfold state_val in *. cbn [fst snd] in *. split; [|split]; auto.
      assert (vprod (map pval (if ((z =? 1) || (z =? -1))%Z then nu else (nu ++ [QInt a])%list)) = vmul (vprod (map pval nu)) (Rv (IZR a))) as ->.
      { destruct ((z =? 1) || (z =? -1))%Z; [rewrite A3 by reflexivity; now rewrite vmul_1_r|apply vprod_snoc]. }
      rewrite <- Vv. cbn [eval]. rewrite !vmul_rr. do 2 f_equal. rewrite A2. destruct (z <? 0)%Z; rewrite ?sgn_flip; ring.
  - (* rationals *) binv H. injection H as <-. apply abs_val in E0 as [A1 A2]. destruct G as ((Hq & _) & _). destruct Hq as [Hq _].
    assert (IZR (den r) <> 0)%R as Dn by (apply not_0_IZR; lia). split.
    + split; cbn [fst snd].
      * destruct (x =? 1)%Z; auto. apply Forall_app. split; auto. constructor; [now apply int_part|constructor].
      * apply Forall_app. split; auto. constructor; [apply int_part; lia|constructor].
    + intros d v (Hd & Vd & Vv) Nt. exists (d * IZR (den r))%R. unfold state_val in *. cbn [fst snd] in *. split; [|split].
      * apply Rmult_integral_contrapositive. auto.
      * rewrite vprod_snoc, Vd. reflexivity.
      * assert (vprod (map pval (if (x =? 1)%Z then nu else (nu ++ [QInt x])%list)) = vmul (vprod (map pval nu)) (Rv (IZR x))) as ->.
        { destruct (Z.eqb_spec x 1) as [->|]; [now rewrite vmul_1_r|apply vprod_snoc]. }
        rewrite <- Vv. cbn [eval]. unfold rat_val. rewrite !vmul_rr. do 2 f_equal. rewrite A2.
        destruct (num r <? 0)%Z; rewrite ?sgn_flip; field; auto.
Qed.
Lemma factors_text l : forall r r', Forall good l -> factor_parts I n l r = Ok r' -> state_ok r ->
  state_ok r' /\ forall d v, state_val r d v -> vmul v (vprod (map ev l)) <> Top -> exists d', state_val r' d' (vmul v (vprod (map ev l))).
Proof.
  induction l as [|e l IH]; intros r r' F H S; cbn [factor_parts] in H.
  - injection H as <-. split; [assumption|]. intros d v V _. exists d. cbn. now rewrite vmul_1_r.
  - binv H. pose proof (Forall_inv F) as Fe. apply Forall_inv_tail in F. destruct (factor_text e r x Fe E0 S) as [S1 V1].
    destruct (IH x r' F H S1) as [S2 V2]. split; [assumption|]. intros d v V N. cbn [map] in *. rewrite vprod_cons in *.
    destruct (V1 d v V) as (d1 & V3).
    + intros K. rewrite K in N. cbn in N. rewrite vmul_top_r in N. congruence.
    + rewrite vmul_assoc in *. eapply V2; eauto.
Qed.
Lemma vdiv_mul a d : d <> 0%R -> vdiv a (Rv d) = vmul a (Rv (/ d)).
Proof.
  intros N. destruct a; cbn; auto; destruct (Req_EM_T d 0); try contradiction; auto.
  destruct (Req_EM_T (/ d) 0) as [K|K]; auto. exfalso. now apply Rinv_neq_0_compat in N.
Qed.
Lemma multiplication_text l str : good (EMul l) -> format_multiplication I n T self l = Ok str -> text_at 2 str (ev (EMul l)).
Proof.
  intros G H. unfold format_multiplication in H. destruct (Nat.ltb_spec (List.length l) 2) as [L|L]; [discriminate|]. binv H.
  unfold formatting_info in E0. binv E0. binv E0. destruct x1 as [[sign nu0] de]. injection E0 as <-.
  apply sorted_factors_perm in E1. cbn [eval]. rewrite (vprod_perm _ _ (Permutation_map ev E1)).
  assert (Forall good x0) as Gx.
  { rewrite Forall_forall. intros e He. apply (good_child _ e G). cbn. apply (Permutation_in e (Permutation_sym E1) He). }
  destruct (factors_text x0 _ _ Gx E2) as [[S1 S2] V]; [split; constructor|]. cbn [fst snd] in S1, S2.
  set (nu := match nu0 with [] => [QInt 1] | _ => nu0 end) in *.
  assert (nu <> [] /\ Forall part_text nu /\ vprod (map pval nu) = vprod (map pval nu0)) as (N1 & N2 & N3).
  { subst nu. destruct nu0; [|repeat split; auto; discriminate]. split; [discriminate|]. split; [constructor; [apply int_part; lia|constructor]|].
    cbn. f_equal. ring. }
  binv H. apply elements_text in E0; auto. destruct E0 as (ta & Wa & Ra).
  assert (exists ta', written 2 ((if sign : bool then "-" else "") ++ x) ta' /\ pv ta' = vmul (pv ta) (Rv (sgn sign))) as (ta' & Wa' & Va').
  { destruct sign; cbn [sgn].
    - destruct (written_negated E x ta Wa) as (t' & W' & V'). exists t'. split; auto. rewrite V', vneg_opp. apply vmul_comm.
    - exists ta. split; auto. now rewrite vmul_1_r. }
  set (a := (if sign : bool then "-" else "") ++ x) in *. clearbody a.
  assert (Vt : forall v, v = vprod (map ev x0) -> v <> Top -> exists d, d <> 0%R /\ vprod (map pval de) = Rv d /\ refines (vmul (pv ta') (Rv (/ d))) v).
  { intros v Hv Nt. destruct (V 1%R (Rv 1)) as (d & Hd & Vd & Vv).
    - split; [lra|]. cbn. split; [reflexivity|]. f_equal. field.
    - rewrite vmul_1_l. now subst v.
    - cbn [fst snd] in *. exists d. split; auto. split; auto. rewrite Va', vmul_rr, Hv. rewrite vmul_1_l in Vv. rewrite <- Vv.
      apply vmul_mono; [|apply refines_refl]. now rewrite <- N3. }
  destruct de as [|q [|q' de]].
  - injection H as <-. exists ta'. split; [assumption|]. destruct (vprod (map ev x0)) eqn:Ev; [| |exact Logic.I].
    + destruct (Vt _ eq_refl ltac:(discriminate)) as (d & Nd & Vd & R). cbn in Vd. injection Vd as <-. rewrite Rinv_1, vmul_1_r in R. exact R.
    + destruct (Vt _ eq_refl ltac:(discriminate)) as (d & Nd & Vd & R). cbn in Vd. injection Vd as <-. rewrite Rinv_1, vmul_1_r in R. exact R.
  - binv H. injection H as <-. apply Forall_inv in S2. destruct (S2 _ E0) as (tb & Wb & Rb). exists (PBin "/" ta' tb). split; [now apply written_div|].
    destruct (vprod (map ev x0)) eqn:Ev; [| |exact Logic.I]; destruct (Vt _ eq_refl ltac:(discriminate)) as (d & Nd & Vd & R);
      cbn [map] in Vd; rewrite vprod_cons in Vd; cbn [vprod fold_right] in Vd; rewrite vmul_1_r in Vd; rewrite Vd in Rb; cbn in Rb;
      change (pv (PBin "/" ta' tb)) with (vdiv (pv ta') (pv tb)); rewrite Rb, vdiv_mul by assumption; exact R.
  - binv H. injection H as <-. apply elements_text in E0; auto; [|discriminate]. apply (text_down 0 2) in E0; try lia.
    apply text_paren in E0. destruct E0 as (tb & Wb & Rb). exists (PBin "/" ta' tb). split.
    + change ("/(" ++ x1 ++ ")") with ("/" ++ "(" ++ x1 ++ ")"). apply written_div; auto. apply (written_down 3 5); auto; lia.
    + destruct (vprod (map ev x0)) eqn:Ev; [| |exact Logic.I]; destruct (Vt _ eq_refl ltac:(discriminate)) as (d & Nd & Vd & R);
      rewrite Vd in Rb; cbn in Rb;
      change (pv (PBin "/" ta' tb)) with (vdiv (pv ta') (pv tb)); rewrite Rb, vdiv_mul by assumption; exact R.
Qed.

(** ** Arguments *)
Lemma args_text l : forall ss, Forall good l -> AstModel.mapM self l = Ok ss ->
  exists ts, Forall2 (written 0) ss ts /\ Forall2 refines (map pv ts) (map ev l).
Proof.
  induction l as [|e l IH]; intros ss F H; cbn [AstModel.mapM] in H.
  - injection H as <-. exists []. split; constructor.
  - binv H. binv H. injection H as <-. pose proof (Forall_inv F) as Fe. apply Forall_inv_tail in F.
    destruct (IH _ F E1) as (ts & W & R). apply (proj1 HS) in E0; [|assumption].
    apply (text_down 0) in E0; auto using lvl_5; [|lia]. destruct E0 as (t & Wt & Rt). exists (t :: ts). split; constructor; assumption.
Qed.
Lemma call_text f l ss : py_identifier f -> Forall good l -> AstModel.mapM self l = Ok ss ->
  exists ts, written 5 (f ++ "(" ++ String.concat ", " ss ++ ")") (PCall (PId f) ts) /\ Forall2 refines (map pv ts) (map ev l).
Proof.
  intros N F H. destruct (args_text l ss F H) as (ts & W & R). exists ts. split; [|assumption].
  apply written_call; auto. now apply written_args_of.
Qed.

(** ** Variables *)
Definition acc_step (a : access) : step :=
  match a with AField _ f => SMember f | AMatrix r c e => SElement (Z.of_nat (e / c)) (Z.of_nat (e mod c)) end.
Definition acc_ok (a : access) : Prop :=
  match a with AField _ f => py_identifier f | AMatrix r c e => e < r * c end.
Lemma access_text a x t y p str : acc_ok a -> primary x t -> part_of t = Some (y, p) -> access_string a = Ok str ->
  exists t', primary (x ++ str) t' /\ part_of t' = Some (y, p ++ [acc_step a])%list.
Proof.
  intros Ho Hx Ht H. destruct a as [o f|r c e]; cbn [access_string acc_ok] in *.
  - injection H as <-. exists (PDot t f). split; [now apply primary_dot|]. cbn [part_of]. now rewrite Ht.
  - unfold compute_indices in H. apply Nat.ltb_lt in Ho. rewrite Ho in H. cbn [bind fst snd] in H. injection H as <-.
    eexists. split; [apply primary_sub; [| |exact Hx]; apply pdec_number; lia|]. cbn [part_of]. rewrite Ht.
    unfold AstModel.dec_nat. rewrite !dec_string, !DecimalZ.of_to. reflexivity.
Qed.
Lemma concat_cons a l : String.concat "" (a :: l) = a ++ String.concat "" l.
Proof. destruct l; cbn; [now rewrite sapp_nil|reflexivity]. Qed.
Lemma accesses_text q : forall x t y p l, Forall acc_ok q -> primary x t -> part_of t = Some (y, p) -> AstModel.mapM access_string q = Ok l ->
  exists t', primary (x ++ String.concat "" l) t' /\ part_of t' = Some (y, p ++ map acc_step q)%list.
Proof.
  induction q as [|a q IH]; intros x t y p l F Hx Ht H; cbn [AstModel.mapM] in H.
  - injection H as <-. cbn. rewrite sapp_nil, app_nil_r. eauto.
  - binv H. binv H. injection H as <-. destruct (access_text a x t y p x0 (Forall_inv F) Hx Ht E0) as (t1 & P1 & Q1).
    destruct (IH _ t1 y _ x1 (Forall_inv_tail F) P1 Q1 E1) as (t2 & P2 & Q2). exists t2. rewrite concat_cons, <- sapp_assoc.
    split; [assumption|]. cbn [map]. now rewrite <- app_assoc in Q2.
Qed.
Lemma elements_matrix r c : elements (TMatrix r c) = map (fun e => [SElement (Z.of_nat (e / c)) (Z.of_nat (e mod c))]) (seq 0 (r * c)).
Proof.
  cbn [elements]. induction r as [|r IH]; [reflexivity|]. rewrite seq_S, flat_map_app, IH. cbn [flat_map plus]. rewrite app_nil_r.
  replace (S r * c) with (r * c + c) by lia. rewrite seq_app, map_app. f_equal. cbn [plus].
  assert (forall k j, j + k <= c -> map (fun j => [SElement (Z.of_nat r) (Z.of_nat j)]) (seq j k) =
    map (fun e => [SElement (Z.of_nat (e / c)) (Z.of_nat (e mod c))]) (seq (r * c + j) k)) as K.
  { induction k as [|k IHk]; intros j L; [reflexivity|]. cbn [seq map]. f_equal.
    - replace ((r * c + j) / c) with r; [replace ((r * c + j) mod c) with j; [reflexivity|]|].
      + rewrite Nat.add_comm, Nat.mod_add by lia. symmetry. apply Nat.mod_small. lia.
      + rewrite Nat.add_comm, Nat.div_add by lia. rewrite Nat.div_small by lia. reflexivity.
    - rewrite IHk by lia. now rewrite Nat.add_succ_r. }
  rewrite (K c 0) by lia. now rewrite Nat.add_0_r.
Qed.
Fixpoint elements_fields (fs : list (string * ty)) : list (list step) :=
  match fs with [] => [] | (f, ft) :: fs' => (map (cons (SMember f)) (elements ft) ++ elements_fields fs')%list end.
Lemma elements_custom m fs : elements (TCustom m fs) = elements_fields fs.
Proof. cbn [elements]. induction fs as [|[f ft] fs IH]; [reflexivity|]. cbn [elements_fields]. now rewrite IH. Qed.
Fixpoint fields_ok_list (fs : list (string * ty)) : Prop :=
  match fs with [] => True | (f, ft) :: fs' => (py_identifier f /\ fields_ok ft) /\ fields_ok_list fs' end.
Lemma fields_ok_custom m fs : fields_ok (TCustom m fs) <-> fields_ok_list fs.
Proof. cbn [fields_ok]. induction fs as [|[f ft] fs IH]; [reflexivity|]. cbn [fields_ok_list]. now rewrite IH. Qed.
Lemma elements_length t : List.length (elements t) = total_size t.
Proof.
  induction t as [m|r c|m fs IH] using ty_nested_ind; [reflexivity| |].
  - rewrite elements_matrix, map_length, seq_length. reflexivity.
  - rewrite elements_custom, total_size_custom. induction IH as [|[f ft] fs H _ IHl]; [reflexivity|].
    cbn [elements_fields]. rewrite app_length, map_length, fields_size_cons. cbn [snd] in H. lia.
Qed.
Lemma elements_path t : forall i p, fields_ok t -> nth_error (elements t) i = Some p ->
  i < total_size t /\ Forall acc_ok (path_of t i) /\ map acc_step (path_of t i) = p.
Proof.
  pose proof elements_length as L.
  induction t as [m|r c|m fs IH] using ty_nested_ind; intros i p O H.
  - destruct i as [|[]]; try discriminate H. injection H as <-. cbn. repeat split; auto.
  - rewrite elements_matrix in H. assert (H0 : i < List.length (map (fun e => [SElement (Z.of_nat (e / c)) (Z.of_nat (e mod c))]) (seq 0 (r * c)))) by (apply nth_error_Some; congruence).
    rewrite map_length, seq_length in H0. split; [exact H0|]. split; [constructor; [exact H0|constructor]|].
    rewrite nth_error_map in H. destruct (nth_error (seq 0 (r * c)) i) as [k|] eqn:N; [|discriminate].
    injection H as <-. rewrite nth_error_nth' with (d := 0) in N by (rewrite seq_length; assumption). rewrite seq_nth in N by assumption.
    injection N as <-. reflexivity.
  - rewrite elements_custom in H. apply fields_ok_custom in O. rewrite total_size_custom, path_of_custom.
    generalize (TCustom m fs) as owner. revert i p O H. induction IH as [|[f ft] fs Hf _ IHl]; intros i p O H owner; [now destruct i|].
    cbn [elements_fields path_of_fields fields_ok_list] in *. destruct O as [[O1 O2] O3]. cbn [snd] in Hf. rewrite fields_size_cons.
    destruct (Nat.ltb_spec i (total_size ft)) as [Lt|Ge].
    + rewrite nth_error_app1 in H by (rewrite map_length, L; assumption). rewrite nth_error_map in H.
      destruct (nth_error (elements ft) i) as [k|] eqn:N; [|discriminate]. injection H as <-. destruct (Hf i k O2 N) as (A & B & C).
      split; [lia|]. split; [constructor; auto|]. cbn [map acc_step]. now rewrite C.
    + rewrite nth_error_app2 in H by (rewrite map_length, L; assumption). rewrite map_length, L in H.
      destruct (IHl _ _ O3 H owner) as (A & B & C). split; [lia|]. auto.
Qed.
Lemma unique_name i : (0 <= i)%Z -> py_identifier ("$u_" ++ AstModel.dec i).
Proof.
  intros L. split; [reflexivity|]. split; [|reflexivity].
  cbn [AstSpec.all_chars append]. change (py_word_char "u") with true. change (py_word_char "_") with true. cbn [andb].
  assert (forall d, AstSpec.all_chars py_word_char (DecimalString.NilEmpty.string_of_uint d) = true) as K.
  { intros d. induction d; cbn; auto. }
  destruct i as [|p|p]; [reflexivity| |lia]. unfold AstModel.dec. cbn [Z.to_int DecimalString.NilZero.string_of_int].
  unfold DecimalString.NilZero.string_of_uint. destruct (Pos.to_uint p) eqn:U; try reflexivity; rewrite <- U; apply K.
Qed.
Lemma var_text_ok v str : var_named T E s v -> var_text T v = Ok str -> text_at 5 str (ev (EVar v)).
Proof.
  intros N H. destruct v as [a st|a i st|i st]; cbn [var_text var_named eval] in *.
  - injection H as <-. destruct N as [N V]. exists (PId a). split; [now apply written_name|]. cbn. exact V.
  - destruct N as (Na & No & p & Np & V). destruct (elements_path _ _ _ No Np) as (L & A & M).
    destruct (t_type T a) as [m|r c|m fs] eqn:Ty.
    + injection H as <-. exists (PId a). split; [now apply written_name|]. cbn. cbn in M. subst p. exact V.
    + binv H. injection H as <-. cbn [path_of map] in *.
      destruct (access_text _ a (PId a) a [] x (Forall_inv A) (primary_name a Na) eq_refl E0) as (t & P & Q).
      exists t. split; [now apply primary_written|]. subst p. cbn [app] in Q.
      replace (pv t) with (pe_value E a [acc_step (AMatrix r c (Z.to_nat i))]); [exact V|].
      destruct t; try discriminate Q; cbn [pvalue]; now rewrite Q.
    + rewrite access_sequence_ok in H by assumption. cbn [bind] in H. binv H. injection H as <-.
      destruct (accesses_text _ a (PId a) a [] x A (primary_name a Na) eq_refl E0) as (t & P & Q).
      exists t. split; [now apply primary_written|]. subst p. cbn [app] in Q.
      replace (pv t) with (pe_value E a (map acc_step (path_of (TCustom m fs) (Z.to_nat i)))); [exact V|].
      destruct t; try discriminate Q; cbn [pvalue]; now rewrite Q.
  - injection H as <-. destruct N as [N V]. exists (PId ("$u_" ++ AstModel.dec i)). split; [apply written_name; now apply unique_name|]. cbn. exact V.
Qed.

(** ** All expressions *)
Lemma fn_identifier f : py_identifier (fn_name f).
Proof. destruct f; repeat split; reflexivity. Qed.
Lemma fn_call f l : call_value E (fn_name f) l = vfun f l.
Proof. destruct f; reflexivity. Qed.
Lemma free_call f l : is_in f reserved_functions = false ->
  call_value E f l = match reals l with Some xs => Rv (pe_fun E f xs) | None => Top end.
Proof.
  intros H. assert (forall g, In g reserved_functions -> String.eqb g f = false) as K.
  { intros g Hg. destruct (String.eqb_spec g f) as [->|]; [|reflexivity]. apply CppParse.is_in_In in Hg. congruence. }
  unfold call_value.
  assert (find (fun b : string * fn => String.eqb (fst b) f) builtins = None) as ->.
  { unfold builtins. cbn [find fst]. rewrite !K by (cbn; tauto). reflexivity. }
  rewrite !(String.eqb_sym f). rewrite !K by (cbn; tauto). reflexivity.
Qed.
Lemma step_text e str : good e -> format_step I n T self e = Ok str -> text_at (lvl e) str (ev e).
Proof.
  intros G H.
  assert (Ga : forall l, (forall x, In x l -> In x (children e)) -> Forall good l).
  { intros l Hl. rewrite Forall_forall. intros x Hx. apply (good_child e); auto. }
  assert (Args : forall f l ss, py_identifier f -> (forall x, In x l -> In x (children e)) -> AstModel.mapM self l = Ok ss ->
    exists ts, written 5 (f ++ "(" ++ String.concat ", " ss ++ ")") (PCall (PId f) ts) /\ Forall2 refines (map pv ts) (map ev l)).
  { intros. apply call_text; auto. }
  assert (One : forall f a x, py_identifier f -> In a (children e) -> self a = Ok x ->
    exists t, written 5 (f ++ "(" ++ x ++ ")") (PCall (PId f) [t]) /\ refines (pv t) (ev a)).
  { intros f a x Nf Ia Hx. destruct (Args f [a] [x] Nf) as (ts & W & R).
    - intros y [<-|[]]. exact Ia.
    - cbn. now rewrite Hx.
    - destruct ts as [|t [|t' ts]]; cbn [map] in R.
      + inversion R.
      + exists t. split; [exact W|]. now inversion R.
      + inversion R as [|u v us vs R1 R2]. inversion R2. }
  destruct e as [f|z|r|c| | | |v|l|l|e1 e2|f l|name l|e|e1 e2 e3|e|e1 e2 k|e1 e2 e3|e|b|op e1 e2]; cbn [format_step lvl] in H |- *.
  - (* doubles *) injection H as <-. destruct (double_text f) as (w & t & W & ->). destruct (Bsign f).
    + exists (PUn "-" t). split; [|exact Logic.I]. apply written_minus. apply (written_down 3 5); auto; lia.
    + exists t. split; [assumption|exact Logic.I].
  - (* integers *) injection H as <-. apply dec_text.
  - (* rationals *) injection H as <-. destruct G as ((Hq & _) & _). destruct Hq as [Hq _].
    destruct (dec_text (num r)) as (t & W & R). exists (PBin "/" t (PNum (AstModel.dec (den r)))). split.
    + apply written_div; [apply (written_down 2 (if (num r <? 0)%Z then 3 else 5)); auto; destruct (_ <? _)%Z; lia|].
      apply (written_down 3 5); try lia. apply written_number. apply pdec_number. lia.
    + change (pv (PBin "/" t (PNum (AstModel.dec (den r))))) with (vdiv (pv t) (num_value (AstModel.dec (den r)))).
      rewrite dec_value. cbn in R. rewrite R. cbn. destruct (Req_EM_T (IZR (den r)) 0) as [K|K]; [|reflexivity].
      apply eq_IZR in K. lia.
  - (* constants *) injection H as <-. destruct HC as (H1 & H2 & H3). destruct c; eexists; (split; [apply written_name; repeat split; reflexivity|]); cbn.
    + exact H2.
    + exact H1.
  - injection H as <-. eexists. split; [apply written_name; repeat split; reflexivity|exact Logic.I].
  - injection H as <-. destruct HC as (H1 & H2 & H3). eexists. split; [apply written_name; repeat split; reflexivity|]. cbn. rewrite H3. discriminate.
  - injection H as <-. eexists. split; [apply written_name; repeat split; reflexivity|exact Logic.I].
  - (* variables *) apply var_text_ok; auto. apply G.
  - now apply multiplication_text.
  - now apply addition_text.
  - (* powers *) assert (Gb : good e1) by (apply (good_child _ e1 G); cbn; auto). assert (Gx : good e2) by (apply (good_child _ e2 G); cbn; auto).
    destruct (is_negative_one e2) eqn:N1; [|now apply power_text].
    binv H. injection H as <-. destruct e2; try discriminate N1. cbn in N1. apply Z.eqb_eq in N1. subst z.
    assert (Pb : text_at 3 x (ev e1)).
    { apply (prec_text p_multiplication 3 e1 x Gb E0 ltac:(lia)). intros P. apply (prec_lvl e1 2 3 P).
      right; right; left. split; [reflexivity|]. split; [reflexivity|].
      apply (proj2 (proj2 (proj2 G) e1 (EInt (-1)) (sh_refl _ _ _))). auto. }
    destruct Pb as (t & W & R). exists (PBin "/" (PNum "1") t). split.
    + apply (written_div "1" x); auto. apply (written_down 2 5); try lia. now apply (written_number "1").
    + change (pv (PBin "/" (PNum "1") t)) with (vdiv (Rv 1) (pv t)).
      assert (Hn : negative_exponent I (EInt (-1))) by (exists (EInt (-1)), (EInt 1); split; reflexivity).
      pose proof (proj1 (proj1 (proj2 (proj2 G) e1 (EInt (-1)) (sh_refl _ _ _)) Hn)) as Nf.
      destruct (ev (EPow e1 (EInt (-1)))) as [y| |] eqn:Ve; [|congruence|exact Logic.I].
      destruct (recip_part e1 (EInt (-1)) y G Hn Ve) as (b' & x' & Vb & Vx & Ny & Vr).
      cbn [eval] in Vx. injection Vx as <-. replace (- -1)%R with 1%R in Vr by ring. rewrite vpow_1_r in Vr. injection Vr as ->.
      rewrite Vb in R. cbn in R. rewrite R. rewrite vdiv_mul by (now apply Rinv_neq_0_compat). cbn. f_equal. now field.
  - (* functions *) unfold format_args in H. binv H. binv E0. injection E0 as <-. injection H as <-.
    destruct (Args (fn_name f) l x0 (fn_identifier f) (fun y Hy => Hy) E1) as (ts & W & R). eexists. split; [exact W|].
    cbn [pvalue eval]. rewrite fn_call. now apply vfun_mono.
  - (* user functions *) unfold format_args in H. binv H. binv E0. injection E0 as <-. injection H as <-.
    destruct G as (_ & ((N1 & N2 & N3) & _) & _).
    destruct (Args name l x0 N1 (fun y Hy => Hy) E1) as (ts & W & R). eexists. split; [exact W|].
    cbn [pvalue eval]. rewrite free_call by assumption. destruct (reals (map ev l)) as [xs|] eqn:Rl; [|exact Logic.I].
    rewrite (reals_mono _ _ _ R Rl). cbn. now rewrite N3.
  - (* unevaluated *) binv H. injection H as <-. apply (proj1 HS) in E0; [|apply (good_child _ e G); cbn; auto].
    apply text_paren. apply (text_down 0 (lvl e)); auto using lvl_5. lia.
  - (* conditionals *) unfold format_args in H. binv H. binv E0. injection E0 as <-. injection H as <-.
    destruct (Args "where" [e1; e2; e3] x0 ltac:(repeat split; reflexivity) (fun y Hy => Hy) E1) as (ts & W & R). eexists. split; [exact W|].
    cbn [pvalue eval]. destruct ts as [|t1 [|t2 [|t3 [|t4 ts]]]]; cbn [map] in R |- *; inversion R as [|? ? ? ? R1 RR1]; subst;
      inversion RR1 as [|? ? ? ? R2 RR2]; subst; inversion RR2 as [|? ? ? ? R3 RR3]; subst; [|inversion RR3].
    now apply vcond_mono.
  - (* iverson *) binv H. injection H as <-. destruct (One "iverson" e x ltac:(repeat split; reflexivity) ltac:(cbn; auto) E0) as (t & W & R).
    eexists. split; [exact W|]. exact R.
  - (* derivatives *) unfold format_args in H. binv H. binv E0. injection E0 as <-. injection H as <-.
    destruct (args_text [e1; e2] x0 (Ga _ (fun y Hy => Hy)) E1) as (ts & W & R).
    assert (exists ts', Forall2 (written 0) (x0 ++ (if (1 <? k)%Z then [AstModel.dec k] else []))%list ts') as (ts' & W').
    { destruct (Z.ltb_spec 1 k); [|rewrite app_nil_r; eauto]. exists (ts ++ [PNum (AstModel.dec k)])%list. apply Forall2_app; auto.
      constructor; [|constructor]. apply (written_down 0 5); try lia. apply written_number. apply pdec_number. lia. }
    exists (PCall (PId "Derivative") ts'). split; [|exact Logic.I]. apply written_args_of in W'.
    assert (length x0 = 2) as Lx.
    { apply F2_length in W. apply F2_length in R. rewrite map_length in R. cbn in R. congruence. }
    destruct x0 as [|a [|b [|]]]; try discriminate Lx.
    match goal with |- written _ ?str _ => replace str with
      ("Derivative" ++ "(" ++ String.concat ", " ([a; b] ++ (if (1 <? k)%Z then [AstModel.dec k] else []))%list ++ ")") end.
    + apply (written_call "Derivative"); [repeat split; reflexivity|assumption].
    + destruct (1 <? k)%Z; cbn [String.concat app]; repeat (progress (rewrite ?sapp_assoc, ?sapp_nil; cbn [append])); reflexivity.
  - (* substitutions *) unfold format_args in H. binv H. binv E0. injection E0 as <-. injection H as <-.
    destruct (Args "Subs" [e1; e2; e3] x0 ltac:(repeat split; reflexivity) (fun y Hy => Hy) E1) as (ts & W & R). eexists. split; [exact W|exact Logic.I].
  - (* stop *) binv H. injection H as <-. destruct (One "StopDerivative" e x ltac:(repeat split; reflexivity) ltac:(cbn; auto) E0) as (t & W & R).
    eexists. split; [exact W|]. exact R.
  - (* booleans *) injection H as <-. eexists. split; [apply written_bool|]. reflexivity.
  - (* relations *) binv H. binv H. injection H as <-.
    assert (P : forall a y, In a [e1; e2] -> format_precedence self p_relational a = Ok y -> text_at 1 y (ev a)).
    { intros a y Ha Hy. apply (prec_text p_relational 1 a y); auto; [now apply (good_child _ a G)|]. intros P. apply (prec_lvl a 0 1 P). auto. }
    destruct (P e1 x ltac:(cbn; auto) E0) as (t1 & W1 & R1). destruct (P e2 x0 ltac:(cbn; auto) E1) as (t2 & W2 & R2).
    exists (PBin (relop_string op) t1 t2). split; [apply written_cmp; auto; now destruct op|].
    cbn [pvalue eval]. replace (bin_value (relop_string op) (pv t1) (pv t2)) with (vrel op (pv t1) (pv t2)) by (now destruct op).
    now apply vrel_mono.
Qed.
End Step.

Theorem plain_text_ok k : self_ok (plain_text I n T k).
Proof.
  induction k as [|k IH]; [split; discriminate|]. split.
  - intros e str G H. cbn [plain_text] in H. now apply (step_text _ IH) in H.
  - intros f str H. cbn [plain_text format_step] in H. now injection H as <-.
Qed.
Theorem plain_text_reads k e str : good e -> plain_text I n T k e = Ok str -> exists t, py_reads str t /\ refines (pv t) (ev e).
Proof.
  intros G H. apply (proj1 (plain_text_ok k)) in H; [|assumption]. destruct H as (t & W & R). exists t. split; [|assumption].
  apply written_reads. eapply written_down; [|apply lvl_5|exact W]. lia.
Qed.
End Plain.
