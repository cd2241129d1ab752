(** C25: distribution of products and powers over sums. *)
From Coq Require Import String List ZArith Reals Bool Lra Lia.
From Verif Require Import Outcome CheckedIntModel RationalModel RationalSpec ExprModel ExprSpec ValProofs ExprProofs OrderSpec NumProofs BuildModel BuildProofs BuildProps SumSpec
  SumProofs FuncModel DerivModel DerivSpec MapModel MapSpec MapProofs TransSpec ClosureProofs MapRunProofs MemoProofs MapProps DistModel DistSpec DistProofs.
Import ListNotations.
Open Scope R_scope.

(** The result has the value of the expression.  The condition on the expressions that are visited holds when
    their operands are real numbers. *)
Theorem C25_value : forall I n k s e d, impl_ok I -> env_ok s -> shaped e -> logs_large s e ->
  (forall x, visited (dist_visit I n) e x -> distributes s x) ->
  distribute I n k e = Ok d ->
  forall x, eval s e = Rv x -> eval s d = Rv x.
Proof.
  intros I n k s e d HI Hs Sh Lo Hd H x Hx. destruct (run_good I HI n s Hs e Hd k e d (visited_root _ _) Sh Lo H) as [[[_ R] _] _].
  cbn [fst snd] in R. rewrite Hx in R. now apply refines_Rv in R.
Qed.
Print Assumptions C25_value.
(** (x+1)(x+y)p; (x+y)^3; (x+y)^-2; p sqrt(x+y) (1 + sqrt(x+y)). *)
Example C25_value_ex :
  let S := EAdd [vx; vy] in let q := EPow S (half) in
  distribute impl_ex 30 20 (EMul [EAdd [EInt 1; vx]; S; vp]) =
    Ok (EAdd [EMul [vp; vx]; EMul [vp; vx; vy]; EMul [vp; vy]; EMul [vp; EPow vx (EInt 2)]]) /\
  distribute impl_ex 30 20 (EPow S (EInt 3)) =
    Ok (EAdd [EMul [EInt 3; vx; EPow vy (EInt 2)]; EMul [EInt 3; vy; EPow vx (EInt 2)]; EPow vx (EInt 3); EPow vy (EInt 3)]) /\
  distribute impl_ex 30 20 (EPow S (EInt (-2))) =
    Ok (EPow (EAdd [EMul [EInt 2; vx; vy]; EPow vx (EInt 2); EPow vy (EInt 2)]) (EInt (-1))) /\
  distribute impl_ex 30 20 (EMul [vp; q; EAdd [EInt 1; q]]) =
    Ok (EAdd [EMul [vp; vx]; EMul [vp; vy]; EMul [vp; q]]).
Proof. repeat split; vm_compute; reflexivity. Qed.

(** The expressions visited for (x+1)(x+y), and the value. *)
Section Visited.
Variable visit : expr -> work.
Fixpoint answers (k : nat) (w : work) : option (list expr) :=
  match w with
  | Answer _ => Some []
  | Ask x f =>
      match run_plain visit k x with
      | Ok d => match answers k (f d) with Some l => Some (x :: l) | None => None end
      | _ => None
      end
  end.
Lemma answers_asked k w : forall l, answers k w = Some l -> forall y, asked visit w y -> In y l.
Proof.
  induction w as [r|x f IH]; intros l H y Hy; cbn [answers] in H.
  - inversion Hy.
  - destruct (run_plain visit k x) as [d| | | |] eqn:E; try discriminate. destruct (answers k (f d)) as [m|] eqn:Em; [|discriminate]. injection H as <-.
    inversion Hy as [|? ? k' d' ? Hr Hy']; subst; [left; auto|]. right. pose proof (plain_det visit x k' k d' _ Hr E ltac:(discriminate)) as D. injection D as ->. eauto.
Qed.
Lemma visited_in k L e : In e L -> (forall x, In x L -> exists l, answers k (visit x) = Some l /\ incl l L) -> forall y, visited visit e y -> In y L.
Proof.
  intros He HL y Hy. induction Hy as [e|e x y Hx IH Ha]; [exact He|]. destruct (HL x (IH He)) as (l & Hl & Hi). apply Hi. eapply answers_asked; eauto.
Qed.
End Visited.
Example C25_value_ex2 : forall s, env_ok s ->
  (forall x, visited (dist_visit impl_ex 30) (EMul [EAdd [EInt 1; vx]; EAdd [vx; vy]]) x -> distributes s x) /\
  exists d, distribute impl_ex 30 20 (EMul [EAdd [EInt 1; vx]; EAdd [vx; vy]]) = Ok d.
Proof.
  intros s Hs. split; [|eexists; vm_compute; reflexivity].
  set (e := EMul [EAdd [EInt 1; vx]; EAdd [vx; vy]]). intros x Hx.
  assert (L : In x [e; EAdd [EInt 1; vx]; EAdd [vx; vy]; EInt 1; vx; vy]).
  { revert x Hx. apply (visited_in _ 5%nat); [left; auto|]. intros x Hx.
    repeat (destruct Hx as [<-|Hx]; [eexists; split; [vm_compute; reflexivity|]; intros z Hz; cbn in Hz |- *; tauto|]). destruct Hx. }
  repeat (destruct L as [<-|L]; [try exact Logic.I|]); [|destruct L].
  intros _. repeat constructor; cbn; eauto.
Qed.

(** With the cache, when no visited expression holds a float: the same results and the same failures. *)
Theorem C25_cached : forall I n e, (forall x, visited (dist_visit I n) e x -> exact x) ->
  (forall k d, distribute I n k e = Ok d -> distribute_cached I n k e = Ok d) /\
  (forall k d, distribute_cached I n k e = Ok d -> exists m, distribute I n m e = Ok d) /\
  (forall k, distribute I n k e = Throws -> distribute_cached I n k e = Throws) /\
  (forall k, distribute_cached I n k e = Throws -> exists m, distribute I n m e = Throws).
Proof.
  intros I n e He.
  destruct (C48_any_visitor I (dist_visit I n) (visited (dist_visit I n) e) e) as (A & B & C & D).
  - intros x Hx. apply asks_visited. intros y Hy. econstructor; eauto.
  - intros a b Ha Hb H. apply key_eq_iff in H; auto.
  - constructor.
  - unfold distribute, distribute_cached. split; [|split; [|split]].
    + intros k d H. destruct (A k d H) as [c E]. rewrite E. reflexivity.
    + intros k d H. binv H. injection H as <-. destruct x as [d c]. eauto.
    + intros k H. rewrite (C k H). reflexivity.
    + intros k H. apply (D k). destruct (run_cached I (dist_visit I n) k e []) as [[? ?]| | | |]; cbn in H; congruence.
Qed.
Print Assumptions C25_cached.
Example C25_cached_ex :
  distribute_cached impl_ex 30 20 (EMul [EAdd [EInt 1; vx]; EAdd [vx; vy]; vp]) =
    Ok (EAdd [EMul [vp; vx]; EMul [vp; vx; vy]; EMul [vp; vy]; EMul [vp; EPow vx (EInt 2)]]).
Proof. vm_compute; reflexivity. Qed.

(** A power of a sum whose exponent becomes zero when it is distributed is rejected. *)
Theorem C25_zero_exponent_refuted : exists e, shaped e /\ exact e /\ distribute impl_ex 30 20 e = Throws /\
  forall s, 0 < ev s (VNamed "x" real_set) + ev s (VNamed "y" real_set) -> logs_large s e /\ eval s e = Rv 1.
Proof.
  exists (EPow (EAdd [vx; vy]) (EAdd [EMul [vp; EAdd [vx; vy]]; EMul [EInt (-1); vp; vx]; EMul [EInt (-1); vp; vy]])).
  split; [cbn; unfold in_i64, INT64_MIN, INT64_MAX; repeat split; lia|]. split; [cbn; unfold in_i64, INT64_MIN, INT64_MAX; repeat split; lia|]. split; [vm_compute; reflexivity|].
  intros s P. split; [cbn; tauto|]. set (x := ev s (VNamed "x" real_set)) in *. set (y := ev s (VNamed "y" real_set)) in *. set (p := ev s (VNamed "p" real_positive)).
  cbn [eval map vx vy vp]. fold x y p. cbn [vsum vprod fold_right vadd vmul].
  rewrite vpow_pos by lra. f_equal. match goal with |- Rpower _ ?e = 1 => replace e with 0 by ring end. apply Rpower_O. lra.
Qed.
Print Assumptions C25_zero_exponent_refuted.
Example C25_zero_exponent_refuted_ex : dist_power_abs impl_ex 30 (EAdd [vx; vy]) 0 (fun d => Answer (Ok d)) = Answer Throws.
Proof. reflexivity. Qed.
