(** Programs made from expressions are sources. *)
From Coq Require Import String List Arith ZArith Reals Bool Permutation Lia.
From Verif Require Import Outcome ZeroProofs NumProofs ConvSpec AstModel AstSpec StmtModel StmtSpec ExprModel BuildModel ExprSpec OrderSpec DerivSpec IrModel IrSpec IrProofs LowerModel LowerSpec LowerProofs LowerSortProofs LowerProps PipeSpec PipeProofs.
Import ListNotations.
Open Scope nat_scope.

Lemma Forall2_split {X Y} (R : X -> Y -> Prop) l1 x l2 m : Forall2 R (l1 ++ x :: l2) m -> exists m1 y m2, m = m1 ++ y :: m2 /\ Forall2 R l1 m1 /\ R x y /\ Forall2 R l2 m2.
Proof.
  intros H. apply Forall2_app_inv_l in H as (m1 & m' & H1 & H2 & ->). inversion H2 as [|? y ? m2 Hy H3]; subst. exists m1, y, m2. auto.
Qed.
Lemma fits_boolean I n args outs : outputs_fit args outs -> Forall (LowerProofs.fits I n False) outs.
Proof.
  intros [F _]. rewrite Forall_forall. intros o Ho. split; [intros []|]. intros Ot e He. destruct (F o Ho) as (_ & _ & B).
  apply (sorter_boolean I n (o_expr o) e); auto.
Qed.

Section Lowered.
Variables (I : impl) (n : nat) (K : ids) (k : nat) (outs : list output) (st : lstate).
Variables (N : names) (oargs : string -> option arg_type).
Hypothesis HI : impl_ok I.
Hypothesis Hf : outputs_fit oargs outs.
Hypothesis Hl : lower_all I n K k outs = Ok st.
Notation g := (l_graph st).
Notation ops := (l_ops st).

Lemma lowered_shape : shape False st /\ all_saved I n env1 (fun _ => 1%R) (fun _ _ => 0%R) (fun _ => False) st outs.
Proof.
  pose proof Hl as H.
  apply (lower_all_ok I n K env1 (fun _ => 1%R) (fun _ _ => 0%R) (inp1 K) (fun _ => False) False HI env1_ok) in H; [exact H|try tauto..].
  now apply (fits_boolean I n oargs).
Qed.
Lemma lowered_source : source lower_typing g ops.
Proof.
  destruct lowered_shape as [L (_ & _ & S2)]. pose proof (li_prog _ _ _ _ _ _ L) as P. destruct P as [B O].
  split; [split; assumption| |reflexivity|].
  - split; [exact (li_zero _ _ _ _ _ _ L)|]. intros v u q Lv E. pose proof (li_all _ _ _ _ _ _ L v Lv) as Iv. split; [assumption|].
    split.
    + destruct (S2 v u q Iv E) as (o & Ho & Eo & _). rewrite E in Eo. injection Eo as -> ->. apply (proj1 Hf o Ho).
    + intros w Hw. destruct (in_dec Nat.eq_dec w ops) as [Iw|Nw]; [|rewrite (bo_dead _ _ _ B w Nw) in Hw; destruct Hw].
      destruct (li_operand _ _ _ _ _ _ L w v Iw Hw) as (t & Ht). rewrite (bo_typed _ _ _ B v Iv), E in Ht. discriminate.
  - intros v a Iv Ha. destruct (li_operand _ _ _ _ _ _ L v a Iv Ha) as (t & ->). discriminate.
Qed.
Lemma lowered_once : returns_once g ops.
Proof.
  destruct lowered_shape as [L (S0 & _ & S2)]. split.
  - intros v key Iv E. destruct (li_made _ _ _ _ _ _ L v Iv) as [M|(u & q & M)]; rewrite E in M; discriminate.
  - intros v w q q' Iv Iw Ev Ew. destruct (Nat.eq_dec v w) as [|Ne]; [assumption|exfalso].
    assert (Jv : In v (saves g ops)) by (apply filter_In; rewrite Ev; auto). assert (Jw : In w (saves g ops)) by (apply filter_In; rewrite Ew; auto).
    assert (Main : forall v w l1 l2 l3, saves g ops = l1 ++ v :: l2 ++ w :: l3 -> (exists q, op_of g v = OSave 2 q) -> (exists q, op_of g w = OSave 2 q) -> False).
    { clear - S0 Hf. intros v w l1 l2 l3 E (q & Ev) (q' & Ew). rewrite E in S0.
      apply Forall2_split in S0 as (m1 & o1 & m' & Em & _ & (O1 & _) & S0). apply Forall2_split in S0 as (m2 & o2 & m3 & -> & _ & (O2 & _) & _).
      rewrite Ev in O1. rewrite Ew in O2. injection O1 as U1 _. injection O2 as U2 _. apply (proj2 Hf o1 o2 m1 m2 m3 Em); congruence. }
    apply in_split in Jv as (l1 & l2 & E). rewrite E in Jw. apply in_app_iff in Jw as [Jw|[Jw|Jw]]; [|congruence|].
    + apply in_split in Jw as (a & b & ->). apply (Main w v a b l2); eauto. rewrite E, <- app_assoc. reflexivity.
    + apply in_split in Jw as (a & b & ->). apply (Main v w l1 a b); eauto.
Qed.
Lemma lowered_forms : loads_exist N g ops -> forall v, In v ops -> has_form N oargs g v /\ forall i, op_of g v <> OGet i.
Proof.
  intros Ld v Iv. destruct lowered_shape as [L (_ & _ & S2)]. destruct (li_prog _ _ _ _ _ _ L) as [B _].
  pose proof (bo_arity _ _ _ B v Iv) as Ar. pose proof (bo_many _ _ _ B v Iv) as Mn. pose proof (Ld v) as Lv. specialize (S2 v).
  unfold has_form. destruct (li_made _ _ _ _ _ _ L v Iv) as [M|(u & q & M)].
  - destruct (op_of g v) as [| | | | | | | | |i| |src| | |key| |u key] eqn:Eo; try discriminate M; (split; [|discriminate]); try exact Logic.I; try (apply Nat.eqb_eq; exact Ar); try (apply Mn; reflexivity).
    destruct src; try exact Logic.I; try discriminate M. apply (Lv arg elem Iv eq_refl).
  - rewrite M in *. split; [|discriminate]. apply Nat.eqb_eq in Ar. destruct (S2 u q Iv eq_refl) as (o & Ho & Eo & _). rewrite M in Eo. injection Eo as -> ->.
    destruct (proj1 Hf o Ho) as (_ & X & _). destruct (o_usage o) as [|[|[|z]]]; try (split; [exact Ar|apply X; discriminate]); exact Ar.
Qed.
(** What the program hands out are the outputs, in order. *)
Lemma lowered_results s inp junk : env_ok s -> inputs_agree K s inp ->
  exists e (results : list (output * R)), exec (real_algebra inp junk) g ops (no_values _) = Some e /\ map fst results = outs /\
    Forall (fun z => forall x, means I n s (fst z) x -> snd z = x) results /\
    outputs (real_algebra inp junk) g e ops = map (fun z => (o_usage (fst z), o_key (fst z), snd z)) results.
Proof.
  intros Hs Hi. destruct (lowered_outputs I n K s inp junk Hi HI Hs False k outs st (fits_boolean I n oargs outs Hf) Hl) as [L (S0 & _ & _)].
  pose proof (li_prog _ _ _ _ _ _ L) as P. destruct (program_runs (real_algebra inp junk) _ _ P) as (q & e & C & X & Y).
  exists e. rewrite (outputs_entries lower_typing (real_algebra inp junk) g ops e q P C Y). rewrite entries_filter.
  change (filter (fun v => is_out (op_of g v)) ops) with (saves g ops).
  assert (Isv : incl (saves g ops) ops) by (intros x Hx; now apply filter_In in Hx).
  assert (Main : exists results : list (output * R), map fst results = outs /\ Forall (fun z => forall x, means I n s (fst z) x -> snd z = x) results /\
    @entries (real_algebra inp junk) g q (saves g ops) = map (fun z => (o_usage (fst z), o_key (fst z), snd z)) results).
  { clear Hl Hf. revert Isv. induction S0 as [|v o vs os (Ev & a & Ea & Va) S0 IH]; intros Isv.
    - exists []. repeat split. constructor.
    - destruct IH as (rs & R1 & R2 & R3); [intros w Hw; apply Isv; now right|]. exists ((o, q v) :: rs). cbn [map fst snd]. split; [now rewrite R1|]. split.
      + constructor; [|assumption]. intros x (d & Hd & W & Lo & Hx & Hz). cbn [fst snd] in *.
        rewrite (C v (Isv v (or_introl eq_refl))), Ev, Ea. cbn. exact (Va d x Hd (conj W Lo) Hx Hz q C).
      + unfold entries. cbn [flat_map]. rewrite Ev. cbn [app]. f_equal. exact R3. }
  destruct Main as (rs & R1 & R2 & R3). exists rs. auto.
Qed.
End Lowered.
