(** Properties of collect. *)
From Coq Require Import String List ZArith Reals Bool Permutation Lra Lia.
From Verif Require Import Outcome CheckedIntProofs RationalModel RationalSpec ExprModel ExprSpec ValProofs ExprProofs NumProofs BuildModel BuildProofs PowProofs BuildProps
  OrderProofs OrderSpec SumSpec SumProofs FuncModel FuncProofs DerivModel DerivSpec DerivFnProofs DerivProofs MapModel MapSpec MapProofs TransSpec CollectModel CollectProofs.
Import ListNotations.
Open Scope R_scope.

(** ** C26 *)
(** The value is kept, for every order in which the map of exponents is traversed. *)
Theorem C26_collect : forall I n iter terms e d s,
  impl_ok I -> (forall g, Permutation (iter g) g) -> env_ok s ->
  shaped e -> logs_large s e -> Forall (wf s) terms ->
  collect_many I n iter e terms = Ok d ->
  forall x, eval s e = Rv x -> eval s d = Rv x.
Proof.
  intros I n iter terms e d s HI Hit Hs Sh Lo Wt H x Hx. unfold collect_many in H. destruct terms as [|t ts]; [congruence|].
  destruct (existsb is_num (t :: ts)); [discriminate|]. binv H. injection H as <-. destruct x0 as [d []].
  destruct (collect_visit_sound I HI n iter Hit s Hs (t :: ts) Wt e Sh Lo d E) as [[_ R] _]. rewrite Hx in R. now apply refines_Rv in R.
Qed.
Print Assumptions C26_collect.
(** x^2*y + x^2*pi - 5x + y is collected by x; and x*y + x*p + x^2*y by x and y. *)
Example C26_collect_ex :
  collect impl_ex 10 (fun g => g)
    (EAdd [EMul [EPow vx (EInt 2); vy]; EMul [EPow vx (EInt 2); ESym Pi]; EMul [EInt (-5); vx]; vy]) vx =
  Ok (EAdd [vy; EMul [EInt (-5); vx]; EMul [EAdd [ESym Pi; vy]; EPow vx (EInt 2)]]) /\
  collect_many impl_ex 10 (@rev _) (EAdd [EMul [vx; vy]; EMul [vp; vx]; EMul [EInt 3; vx; vy]; EMul [EPow vx (EInt 2); vy]; vy]) [vx; vy] =
  Ok (EAdd [vy; EMul [vx; EAdd [vp; EMul [EInt 4; vy]]]; EMul [vy; EPow vx (EInt 2)]]).
Proof. split; vm_compute; reflexivity. Qed.

(** Numbers cannot be collected. *)
Theorem C26_numbers_rejected : forall I n iter terms e, existsb is_num terms = true -> collect_many I n iter e terms = Throws.
Proof. intros I n iter terms e H. unfold collect_many. destruct terms; [discriminate|]. now rewrite H. Qed.
Print Assumptions C26_numbers_rejected.
Example C26_numbers_rejected_ex : collect impl_ex 10 (fun g => g) (EAdd [vx; EInt 2]) (EInt 2) = Throws.
Proof. vm_compute; reflexivity. Qed.

(** What is collected: a sum becomes the sum of the terms without the collected term and of one term for each
    exponent. *)
Theorem C26_one_term_per_exponent : forall I n iter t l d,
  (forall g, Permutation (iter g) g) -> collect_many I n iter (EAdd l) [t] = Ok d ->
  exists (rest : list expr) (coeffs : list (expr * list expr)) (products : list expr),
    e_add I n (rest ++ products) = Ok d /\
    Forall (fun e => has_power t e = false) rest /\
    ForallOrdPairs (fun a b => exact (fst a) -> fst a <> fst b) coeffs /\
    exists order, Permutation order coeffs /\
    Forall2 (fun xc p => (let* w := e_pow I n t (fst xc) in let* c := e_add I n (snd xc) in e_mul2 I n w c) = Ok p) order products.
Proof.
  intros I n iter t l d Hit H. unfold collect_many in H. destruct (existsb is_num [t]); [discriminate|]. binv H. injection H as <-.
  rewrite collect_visit_eq in E. binv E. binv E. injection E as <-. cbn [fst snd]. cbn [collect_add] in E1. binv E1. destruct x as [rest g]. cbn [fst snd] in E1.
  cbn [bind] in E1. binv E1. exists rest, g, x.
  assert (Hx0 : (let* more := emap (fun xc : expr * list expr => let* p := e_pow I n t (fst xc) in let* c := e_add I n (snd xc) in e_mul2 I n p c) (iter g) in
    e_add I n (rest ++ more)) = Ok x1).
  { cbn [bind]. rewrite E2. exact E1. }
  split; [exact E1|]. split; [exact (split_rest I n t _ _ _ _ E)|]. split.
  - pose proof (split_apart I n t _ _ _ _ E (FOP_nil _)) as A. clear - A. unfold apart in A. induction A as [|a g A1 A2 IH]; constructor; auto.
    eapply Forall_impl; [|exact A1]. cbn. intros b Hb Ex Eq. rewrite <- Eq in Hb. rewrite (proj2 (key_eq_iff I _ _ Ex Ex) eq_refl) in Hb. discriminate.
  - exists (iter g). split; [apply Hit|]. apply emap_inv in E2. exact E2.
Qed.
Print Assumptions C26_one_term_per_exponent.
Example C26_one_term_per_exponent_ex :
  has_power vx (EMul [EInt 2; EPow vx (EInt 3)]) = true /\ has_power vx (EMul [EInt 2; vy]) = false /\
  collect impl_ex 10 (fun g => g) (EAdd [EMul [EInt 2; vx]; EMul [vx; vy]; EMul [EInt 2; vy]]) vx =
  Ok (EAdd [EMul [EInt 2; vy]; EMul [vx; EAdd [EInt 2; vy]]]).
Proof. repeat split; vm_compute; reflexivity. Qed.
