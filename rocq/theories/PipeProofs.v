(** From a list of operations to blocks: the passes keep what the conversion of selects expects. *)
From Coq Require Import String List Arith NArith ZArith Bool Permutation Lia.
From Verif Require Import Outcome ZeroProofs NumProofs RangesModel IrModel IrSpec IrProofs IrProps FactorModel PassModel PassProofs PassBinarizeProofs PassProps CfgModel ConvModel ConvSpec AstModel StmtModel StmtSpec PipeSpec.
Import ListNotations.
Open Scope outcome_scope.
Open Scope nat_scope.

(** * All values stay in the first block *)
Lemma zero_set_operation g v o t l g' : zero g -> set_operation g v o t l = Ok g' -> zero g'.
Proof.
  intros Z. unfold set_operation. destruct (arity_ok o (length l)); [|discriminate]. intros E. injection E as <-.
  assert (Z2 : zero (add_consumers (remove_consumers g (args g v) v) l v)) by now apply zero_add, zero_remove_consumers.
  apply zero_set; [assumption|apply Z2].
Qed.
Lemma zero_replace_operand g c old new : zero g -> zero (replace_operand g c old new).
Proof.
  intros Z. unfold replace_operand. set (g1 := add_consumers _ _ _). assert (Z1 : zero g1) by now apply zero_add.
  apply zero_set; [assumption|apply Z1].
Qed.
Lemma zero_replace g v o g' : zero g -> replace_with g v o = Ok g' -> zero g'.
Proof.
  intros Z. unfold replace_with. destruct (v =? o); [discriminate|]. intros E. injection E as <-.
  set (g1 := fold_left _ _ _). assert (Z1 : zero g1).
  { unfold g1. generalize (cons_of g v). intros l. clear - Z. revert g Z. induction l as [|c l IH]; intros g Z; [assumption|]. apply IH. now apply zero_replace_operand. }
  apply zero_set; [assumption|apply Z1].
Qed.
Lemma zero_remove g v g' : zero g -> remove_value g v = Ok g' -> zero g'.
Proof.
  intros Z. unfold remove_value. destruct (cons_of g v); [|discriminate]. intros E. injection E as <-.
  assert (Z1 : zero (remove_consumers g (args g v) v)) by now apply zero_remove_consumers. apply zero_set; [assumption|apply Z1].
Qed.
Lemma zero_pair g v a b new : zero g -> zero (fst (replace_operand_pair g v a b new)).
Proof.
  intros Z. unfold replace_operand_pair. cbn [fst]. set (g3 := add_consumers _ _ _).
  assert (Z3 : zero g3) by (now apply zero_add, zero_remove_consumers, zero_remove_consumers). apply zero_set; [assumption|apply Z3].
Qed.

Lemma mfold_keeps {S A} (I : S -> Prop) (f : S -> A -> outcome S) : (forall s a s', I s -> f s a = Ok s' -> I s') ->
  forall l s s', I s -> mfold f l s = Ok s' -> I s'.
Proof.
  intros H l. induction l as [|a l IH]; intros s s' Hs E; [injection E as <-; assumption|]. cbn [mfold] in E. binv E. eauto.
Qed.

Definition zero1 (st : graph * list name) : Prop := zero (fst st).
Definition zero2 (st : graph * list name * list name) : Prop := zero (fst (fst st)).

Lemma zero_remove_if_unused g v : zero g -> zero (fst (remove_if_unused g v)).
Proof.
  intros Z. unfold remove_if_unused. destruct (is_unused g v); [|assumption].
  destruct (remove_value g v) eqn:E; try assumption. now apply (zero_remove g v).
Qed.
Lemma zero_unused l : forall g, zero g -> zero (fst (remove_unused g l)).
Proof.
  intros g Z. unfold remove_unused. destruct (reverse_remove_if remove_if_unused l g) as [o g'] eqn:E. cbn [fst].
  revert o g' E. induction l as [|a l IH]; intros o g' E; cbn in E; [injection E as _ <-; assumption|].
  destruct (reverse_remove_if remove_if_unused l g) as [o1 g1]. specialize (IH o1 g1 eq_refl).
  pose proof (zero_remove_if_unused g1 a IH) as Z2. destruct (remove_if_unused g1 a) as [g2 rm]. injection E as _ <-. exact Z2.
Qed.
Lemma zero_duplicates st st' : zero1 st -> eliminate_duplicates st = Ok st' -> zero1 st'.
Proof.
  intros Z E. destruct st as [g ops]. unfold eliminate_duplicates in E. binv E. injection E as <-. apply zero_unused.
  unfold local_value_numbering in E0. binv E0. injection E0 as <-.
  refine (mfold_keeps zero1 lvn_step _ ops (g, []) x0 Z E). clear. intros [g t] v [g' t'] Z E. unfold lvn_step in E.
  destruct (find _ t); [|injection E as <- <-; assumption].
  destruct (is_consumed_by_phi g v); binv E; injection E as <- <-; [now apply (zero_set_operation g v _ _ _ _ Z E0)|now apply (zero_replace g v _ _ Z E0)].
Qed.
Lemma zero_copies st st' : zero1 st -> eliminate_needless_copies st = Ok st' -> zero1 st'.
Proof.
  intros Z. unfold eliminate_needless_copies. apply (mfold_keeps zero1); [|exact Z]. clear. intros [g t] v [g' t'] Z E. unfold copy_step in E.
  destruct (is_copy (op_of g v)); [|injection E as <- <-; assumption]. binv E.
  destruct (parent g x =? parent g v); [|injection E as <- <-; assumption]. binv E. binv E. injection E as <- <-.
  apply (zero_remove x0 v _); [now apply (zero_replace g v x)|assumption].
Qed.
Lemma zero_finish st st' : zero1 st -> finish 0 st = Ok st' -> zero1 st'.
Proof.
  intros Z E. unfold finish in E. pose proof (zero_unused (snd st) (fst st) Z) as Z2. destruct (remove_unused (fst st) (snd st)) as [g ops].
  binv E. injection E as <-. exact Z2.
Qed.
Lemma zero_merge st st' : zero1 st -> merge_multiplications_in_block st = Ok st' -> zero1 st'.
Proof.
  intros Z E. unfold merge_multiplications_in_block in E. binv E. injection E as <-. apply zero_unused.
  refine (mfold_keeps zero merge_one _ (snd st) (fst st) x Z E0). clear. intros g v g' Z E. unfold merge_one in E.
  destruct (is_mul (op_of g v)); [|injection E as <-; assumption]. destruct (_ <? _); [|injection E as <-; assumption].
  now apply (zero_set_operation g v _ _ _ _ Z E).
Qed.
Lemma zero_negate st v st' : zero1 st -> negate_one 0 st v = Ok st' -> zero1 st'.
Proof.
  intros Z E. destruct st as [g ops]. unfold negate_one in E. destruct (is_mul (op_of g v)); [|injection E as <-; assumption]. binv E.
  destruct (length (args g v) - length x); [injection E as <-; assumption|]. destruct x as [|y x]; [injection E as <-; assumption|]. binv E.
  destruct x0 as [g1 p]. assert (Z1 : zero g1).
  { destruct x; [injection E1 as <- _; assumption|]. now apply (zero_push g _ _ _ _ _ Z E1). }
  destruct (Nat.odd (S n)).
  - binv E. destruct x0 as [g2 q]. binv E. injection E as <-. apply (zero_replace g2 v q); [now apply (zero_push g1 _ _ _ _ _ Z1 E2)|assumption].
  - binv E. injection E as <-. now apply (zero_replace g1 v p).
Qed.
Lemma zero_cast g v t g' c : zero g -> maybe_cast g v t = Ok (g', c) -> zero g'.
Proof.
  intros Z E. unfold maybe_cast in E. binv E. destruct (numeric_dec x t); [injection E as <- _; assumption|]. rewrite (Z v) in E. now apply (zero_push g _ _ _ _ _ Z E).
Qed.
Lemma zero_term t idx vars g ops mul g' ops' v : zero g -> factored_term 0 t idx vars (g, ops) mul = Ok (g', ops', v) -> zero g'.
Proof.
  intros Z E. unfold factored_term in E. binv E. destruct x as [|a [|b x]].
  - binv E. destruct x as [g1 one]. binv E. destruct x as [g2 c]. injection E as <- _ _.
    apply (zero_cast g1 one t g2 c); [now apply (zero_push g _ _ _ _ _ Z E1)|assumption].
  - injection E as <- _ _. assumption.
  - binv E. destruct x0 as [g1 p]. injection E as <- _ _. now apply (zero_push g _ _ _ _ _ Z E1).
Qed.
Lemma if_ok {A} (b : bool) (x : outcome A) y : (if b then x else Throws) = Ok y -> x = Ok y.
Proof. destruct b; [auto|discriminate]. Qed.
Definition term_step (t : numeric) (idx : list name) (vars terms : bits) (muls : list name) (acc : graph * list name * list name) (j : nat)
    : outcome (graph * list name * list name) :=
  let '(g, ops, sum_args) := acc in
  if bit terms j then
    let* x := factored_term 0 t idx vars (g, ops) (nth j muls 0) in
    Ok (fst x, sum_args ++ [snd x])
  else Ok acc.
Lemma zero_term_step t idx vars terms muls st j st' : zero2 st -> term_step t idx vars terms muls st j = Ok st' -> zero2 st'.
Proof.
  destruct st as [[g ops] sa]. unfold term_step. destruct (bit terms j); [|intros Z E; injection E as <-; assumption].
  intros Z E. binv E. injection E as <-. destruct x as [[g1 o1] w]. now apply (zero_term t idx vars g ops _ _ _ _ Z E0).
Qed.
(** The step with any way to count (so that no comparison of terms unfolds the counting). *)
Definition step_with (cnt : bits -> nat) (block : nat) (t : numeric) (idx muls : list name)
    (st : graph * list name * list name) (s : step) : outcome (graph * list name * list name) :=
  let '(g, ops, sum) := st in
  let (vars, terms) := s in
  if (1 <=? cnt vars) && (2 <=? cnt terms) then
    let mul_args := variables_of idx vars in
    let* r := mfold (fun (acc : graph * list name * list name) j =>
                       let '(g, ops, sum_args) := acc in
                       if bit terms j then
                         let* x := factored_term block t idx vars (g, ops) (nth j muls 0) in
                         Ok (fst x, sum_args ++ [snd x])
                       else Ok acc)
                    (seq 0 (length muls)) (g, ops, []) in
    let '(g, ops, sum_args) := r in
    if 2 <=? length sum_args then
      let* gs := push_value g block OAdd (TScalar t) sum_args in
      let (g, s) := (gs : graph * name) in
      let mul_args := mul_args ++ [s] in
      if 2 <=? length mul_args then
        let* gp := push_value g block OMul (TScalar t) mul_args in
        Ok (fst gp, (ops ++ [s]) ++ [snd gp], sum ++ [snd gp])
      else Throws
    else Throws
  else Throws.
Lemma step_with_count : factored_step = step_with count.
Proof. reflexivity. Qed.
Lemma zero_step_with cnt t idx muls st s st' : zero2 st -> step_with cnt 0 t idx muls st s = Ok st' -> zero2 st'.
Proof.
  intros Z E. destruct st as [[g ops] sum]. destruct s as [vars terms]. unfold step_with in E.
  apply if_ok in E. fold (term_step t idx vars terms muls) in E. binv E.
  assert (Z1 : zero2 x) by (refine (mfold_keeps zero2 (term_step t idx vars terms muls) _ _ (g, ops, []) x Z E0); intros a b c; apply zero_term_step).
  clear E0 Z. destruct x as [[g1 o1] sa]. apply if_ok in E. binv E. destruct x as [g2 q].
  assert (Z2 : zero g2) by exact (zero_push g1 _ _ _ g2 q Z1 E0). clear E0.
  cbv zeta in E. apply if_ok in E. binv E. destruct x as [g3 p]. injection E as <-.
  exact (zero_push g2 _ _ _ g3 p Z2 E0).
Qed.
Lemma zero_step t idx muls st s st' : zero2 st -> factored_step 0 t idx muls st s = Ok st' -> zero2 st'.
Proof. rewrite step_with_count. apply zero_step_with. Qed.
Lemma zero_factorize st v st' : zero1 st -> factorize_one 0 st v = Ok st' -> zero1 st'.
Proof.
  intros Z E. destruct st as [g ops]. unfold factorize_one in E. destruct (is_add (op_of g v)); [|injection E as <-; assumption].
  destruct (separate_muls g (args g v)) as [muls non]. destruct (length muls <=? 1); [injection E as <-; assumption|]. binv E.
  destruct x as [[idx masks]|]; [|injection E as <-; assumption]. binv E. destruct x as [|fac x]; [injection E as <-; assumption|].
  binv E. destruct x0 as [[g1 o1] w]. binv E. injection E as <-. apply (zero_replace g1 v w); [|assumption].
  unfold factorize_sum_of_products in E2. destruct muls as [|m muls]; [discriminate|]. binv E2. binv E2.
  assert (Z1 : zero2 x2) by (match goal with H : mfold _ _ _ = Ok x2 |- _ => revert H end; apply (mfold_keeps zero2); [intros s a s'; apply zero_step|exact Z]).
  destruct x2 as [[g2 o2] sum]. cbv zeta in E2. destruct ((sum ++ non) ++ _) as [|a [|b l]]; [discriminate|injection E2 as <- _ _; exact Z1|].
  binv E2. destruct x2 as [g3 p]. injection E2 as <- _ _. match goal with H : push_value g2 _ _ _ _ = Ok _ |- _ => exact (zero_push g2 _ _ _ _ _ Z1 H) end.
Qed.
Lemma zero_consumer a b new st e st' : zero1 st -> binarize_consumer a b new st e = Ok st' -> zero1 st'.
Proof.
  intros Z E. destruct st as [g act]. unfold binarize_consumer in E. destruct (2 <? length (args g (fst e))).
  - pose proof (zero_pair g (fst e) a b new Z) as Z1. destruct (replace_operand_pair g (fst e) a b new) as [g1 k]. injection E as <-. exact Z1.
  - destruct (args g (fst e)) as [|x [|y [|z l]]]; try discriminate. destruct (_ && _ && _); [|injection E as <-; assumption].
    binv E. injection E as <-. now apply (zero_replace g _ _ _ Z E0).
Qed.
Lemma zero_binarize_pair mul st e st' : zero2 st -> binarize_pair 0 mul st e = Ok st' -> zero2 st'.
Proof.
  intros Z E. destruct st as [[g ops] act]. destruct e as [[a b] es]. unfold binarize_pair in E. binv E. destruct x as [g1 n].
  binv E. destruct x as [g2 act2]. injection E as <-. assert (Z1 : zero1 (g1, act)) by now apply (zero_push g _ _ _ _ _ Z E0).
  refine (mfold_keeps zero1 _ _ es (g1, act) (g2, act2) Z1 E1). intros s x s'. apply zero_consumer.
Qed.
Lemma zero_loop mul : forall fuel g ops act st', zero g -> binarize_loop fuel 0 mul g ops act = Ok st' -> zero1 st'.
Proof.
  induction fuel as [|fuel IH]; intros g ops act st' Z E; [discriminate|]. cbn [binarize_loop] in E. destruct act as [|a act]; [injection E as <-; assumption|].
  binv E. binv E. destruct x0 as [[g1 o1] act1]. refine (IH g1 o1 act1 st' _ E).
  assert (Z0 : zero2 (g, ops, [])) by exact Z. refine (mfold_keeps zero2 _ _ x _ (g1, o1, act1) Z0 E1). intros s y s'. apply zero_binarize_pair.
Qed.
Lemma zero_simplified fuel passes binarize st st' : zero1 st -> apply_simplifications fuel passes 0 binarize st = Ok st' -> zero1 st'.
Proof.
  intros Z E. unfold apply_simplifications in E. binv E. apply zero_duplicates in E0; [|assumption]. clear Z. rename x into s1. binv E.
  assert (Z2 : zero1 x).
  { revert s1 E0 E1. clear. induction passes as [|n IH]; intros s1 Z E; cbn [factorize_sums] in E; [injection E as <-; assumption|].
    binv E. binv E. binv E. binv E. refine (IH x3 _ E). apply (zero_duplicates x2); auto. apply (zero_copies x1); auto. apply (zero_merge x0); auto.
    unfold factorize_sums_in_block in E0. binv E0. apply (zero_finish x4); auto. revert E4. apply (mfold_keeps zero1); [|exact Z]. intros s v s'. apply zero_factorize. }
  rename x into s2. binv E. assert (Z3 : zero1 x).
  { destruct binarize; [|injection E2 as <-; assumption]. binv E2. apply (zero_duplicates x0); auto. unfold binarize_operations in E3. binv E3.
    assert (ZT : forall m s s', zero1 s -> binarize_of_type fuel 0 m s = Ok s' -> zero1 s').
    { clear. intros m s s' Z E. unfold binarize_of_type in E. binv E. apply (zero_finish x); auto. now apply (zero_loop m fuel _ _ _ _ Z E0). }
    apply (ZT false x1); auto. now apply (ZT true s2). }
  binv E. apply (zero_duplicates x0); auto. unfold insert_negations in E3. binv E3. apply (zero_finish x1); auto.
  revert E4. apply (mfold_keeps zero1); [|exact Z3]. intros s v s'. apply zero_negate.
Qed.

(** One entry for every save, whatever the order. *)
Definition entries {A : algebra} (g : graph) (r : name -> D A) (l : list name) : list (nat * string * D A) :=
  flat_map (fun v => match op_of g v with OSave u k => [(u, k, r v)] | _ => [] end) l.
Lemma outputs_entries (T : typing) (A : algebra) (g : graph) (ops : list name) (e : env A) (r : name -> D A) : program T g 0 ops ->
  consistent r g ops -> (forall v, In v ops -> e v = Some (r v)) -> outputs A g e ops = entries g r ops.
Proof.
  intros [B O] C V. unfold outputs, entries.
  assert (X : forall l, incl l ops -> flat_map (fun v => match op_of g v, args g v with
                     | OSave u k, [a] => match e a with Some d => [(u, k, d)] | None => [] end
                     | _, _ => []
                     end) l = flat_map (fun v => match op_of g v with OSave u k => [(u, k, r v)] | _ => [] end) l).
  { induction l as [|v l IH]; intros Il; [reflexivity|]. cbn [flat_map]. rewrite IH by (intros w Hw; apply Il; now right). f_equal.
    assert (Iv : In v ops) by (apply Il; now left). destruct (op_of g v) eqn:E; auto.
    pose proof (bo_arity _ _ _ B v Iv) as Ar. rewrite E in Ar. apply Nat.eqb_eq in Ar.
    destruct (args g v) as [|a [|b q]] eqn:Ea; try discriminate. rewrite V.
    - rewrite (C v Iv), E, Ea. cbn [map]. now rewrite sem_save.
    - assert (Ha : In a (args g v)) by (rewrite Ea; now left). destruct (O v a Iv Ha) as (l1 & l2 & -> & I1). apply in_or_app. now left. }
  apply X. intros v Hv. exact Hv.
Qed.

(** * What the passes keep *)
Section Keep.
Variable T : typing.
Variables (g : graph) (ops : list name) (g' : graph) (ops' : list name).
Hypothesis H : source T g ops.
Hypothesis P' : program T g' 0 ops'.
Hypothesis S' : sim g ops g' ops'.
Hypothesis Z' : zero g'.

Lemma kept_op v : In v ops' -> (In v ops /\ op_of g' v = op_of g v) \/ pass_op (op_of g' v) = true.
Proof.
  intros Hv. destruct P' as [B' _]. destruct (sim_ops _ _ _ _ S' v (bo_fresh _ _ _ B' v Hv)) as [[L E]|E]; [|now right].
  left. split; [|assumption]. destruct (sim_in _ _ _ _ S' v Hv) as [K|K]; [assumption|lia].
Qed.
Lemma kept_outputs_ok : outputs_ok g' ops'.
Proof.
  split; [exact Z'|]. intros v u k L E. destruct H as [P O Sv Op]. destruct O as [_ O].
  destruct (sim_ops _ _ _ _ S' v L) as [[L0 E0]|E0]; [|rewrite E in E0; discriminate].
  rewrite E0 in E. destruct (O v u k L0 E) as (I0 & U & _).
  destruct (proj1 (sim_save _ _ _ _ S' v u k) (conj I0 E)) as [I' E']. split; [assumption|]. split; [assumption|].
  intros w Hw. destruct P' as [B' _]. destruct (in_dec Nat.eq_dec w ops') as [Iw|Nw]; [|rewrite (bo_dead _ _ _ B' w Nw) in Hw; destruct Hw].
  apply (sim_operand _ _ _ _ S' Op w v Iw Hw). rewrite (bo_typed _ _ _ B' v I'), E'. apply Sv.
Qed.
Lemma kept_returns_once : returns_once g ops -> returns_once g' ops'.
Proof.
  intros [R1 R2]. split.
  - intros v key Hv E. destruct (kept_op v Hv) as [[I0 E0]|E0]; [|rewrite E in E0; discriminate]. rewrite E0 in E. now apply (R1 v key).
  - intros v w k k' Hv Hw Ev Ew. destruct (proj2 (sim_save _ _ _ _ S' v 2 k) (conj Hv Ev)). destruct (proj2 (sim_save _ _ _ _ S' w 2 k') (conj Hw Ew)).
    now apply (R2 v w k k').
Qed.
Lemma kept_form N outs : returns_once g ops ->
  (forall v, In v ops -> has_form N outs g v /\ forall i, op_of g v <> OGet i) ->
  forall v, In v ops' -> has_form N outs g' v /\ forall i, op_of g' v <> OGet i.
Proof.
  intros [R1 _] F v Hv. destruct P' as [B' _].
  pose proof (bo_arity _ _ _ B' v Hv) as Ar. pose proof (bo_many _ _ _ B' v Hv) as Mn. pose proof (bo_plain _ _ _ B' v Hv) as (Pl1 & Pl2 & _).
  destruct (kept_op v Hv) as [[I0 E0]|E0].
  - destruct (F v I0) as [Fv Gv]. split; [|intros i; rewrite E0; apply Gv].
    unfold has_form in *. rewrite E0 in *. specialize (R1 v).
    destruct (op_of g v) as [| | | | | | | | |i| |src| | |key| |u key] eqn:Eo; try exact Logic.I; try (apply Nat.eqb_eq; exact Ar); try (apply Mn; reflexivity); try assumption; try congruence.
    apply Nat.eqb_eq in Ar. destruct u as [|[|[|u]]]; try (split; [exact Ar|apply Fv]); exact Ar.
  - unfold has_form. destruct (op_of g' v) as [| | | | | | | | |i| |src| | |key| |u key] eqn:Eo; try discriminate E0; (split; [|discriminate]);
      try exact Logic.I; try (apply Nat.eqb_eq; exact Ar); try (apply Mn; reflexivity).
    destruct src; try discriminate E0. exact Logic.I.
Qed.

Definition is_out (o : op) : bool := match o with OSave _ _ => true | _ => false end.
Lemma entries_filter {A : algebra} (h : graph) (r : name -> D A) l : entries h r l = entries h r (filter (fun v => is_out (op_of h v)) l).
Proof.
  induction l as [|v l IH]; [reflexivity|]. cbn [filter]. unfold entries in *. cbn [flat_map]. destruct (op_of h v) eqn:E; cbn [is_out]; try exact IH.
  cbn [flat_map]. rewrite E. cbn. now rewrite IH.
Qed.
Lemma kept_outputs (A : algebra) : exists e e',
  exec A g ops (no_values A) = Some e /\ exec A g' ops' (no_values A) = Some e' /\
  Permutation (outputs A g' e' ops') (outputs A g e ops).
Proof.
  pose proof (so_program _ _ _ H) as P.
  destruct (consistent_exists (T := T) A g 0 ops [] (fun _ => d0 A)) as (r & C); auto; [intros v []|]. cbn [app] in C.
  destruct (exec_consistent (T := T) A g 0 ops [] (no_values A) r) as (e & X & V); auto; [intros v []|]. cbn [app] in *.
  destruct (sim_val _ _ _ _ S' A r C) as (r' & Er & C').
  destruct (exec_consistent (T := T) A g' 0 ops' [] (no_values A) r') as (e' & X' & V'); auto; [intros v []|]. cbn [app] in *.
  exists e, e'. split; [assumption|]. split; [assumption|].
  rewrite (outputs_entries T A g ops e r P C V), (outputs_entries T A g' ops' e' r' P' C' V').
  rewrite (entries_filter g'), (entries_filter g).
  set (l := filter _ ops). set (l' := filter _ ops').
  assert (Mem : forall v, In v l' <-> In v l).
  { intros v. unfold l, l'. rewrite !filter_In. pose proof (sim_save _ _ _ _ S' v) as Sv. split; intros [I1 E1].
    - destruct (op_of g' v) as [| | | | | | | | | | | | | | | |u k] eqn:Eo; try discriminate. destruct (proj2 (Sv u k) (conj I1 eq_refl)) as [I0 ->]. split; auto.
    - destruct (op_of g v) as [| | | | | | | | | | | | | | | |u k] eqn:Eo; try discriminate. destruct (proj1 (Sv u k) (conj I1 eq_refl)) as [I0 ->]. split; auto. }
  assert (Pm : Permutation l' l).
  { apply NoDup_Permutation; [apply NoDup_filter, (bo_nodup _ _ _ (proj1 P'))|apply NoDup_filter, (bo_nodup _ _ _ (proj1 P))|exact Mem]. }
  assert (Eq : entries g' r' l' = entries g r l').
  { assert (Il : incl l' l) by (intros v; apply Mem). clear - Il Er S' P. revert Il. generalize l' as q. intros q Il.
    unfold entries. induction q as [|v q IH]; [reflexivity|]. cbn [flat_map]. rewrite IH by (intros w Hw; apply Il; now right). f_equal.
    assert (Hv : In v l) by (apply Il; now left). unfold l in Hv. apply filter_In in Hv as [Iv Ov].
    destruct (op_of g v) as [| | | | | | | | | | | | | | | |u k] eqn:Eo; try discriminate.
    destruct (proj1 (sim_save _ _ _ _ S' v u k) (conj Iv Eo)) as [_ ->]. rewrite Er; [reflexivity|]. exact (bo_fresh _ _ _ (proj1 P) v Iv). }
  rewrite Eq. unfold entries. now apply Permutation_flat_map.
Qed.
End Keep.
