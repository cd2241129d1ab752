(** C52: the plain text of expressions. *)
From Coq Require Import String List Arith ZArith Reals Bool Lia Lra Permutation.
From Flocq Require Import IEEE754.BinarySingleNaN.
From Verif Require Import Outcome RationalModel IntFloatModel ExprModel BuildModel FuncModel DerivModel CustomTypeModel ExprSpec OrderSpec LowerSpec
  NumProofs ValProofs BuildProps CppSpec PySpec PyParse PlainModel PlainSpec PlainLex PlainProofs.
From Verif Require AstModel.
Import ListNotations.
Open Scope string_scope.
Open Scope nat_scope.

(** A text is read in at most one way. *)
Theorem C52_unambiguous : forall str t t', py_reads str t -> py_reads str t' -> t = t'.
Proof. intros str t t'. unfold py_reads. apply py_unambiguous. Qed.
Print Assumptions C52_unambiguous.
(** 2 - 3 - x, -x**-y, 1/(x*y)*z, x < y*2 and f(x, m.a[0, 1]). *)
Example C52_unambiguous_ex :
  py_reads "2 - 3 - x" (PBin "-" (PBin "-" (PNum "2") (PNum "3")) (PId "x")) /\
  py_reads "-x**-y" (PUn "-" (PBin "**" (PId "x") (PUn "-" (PId "y")))) /\
  py_reads "1/(x*y)*z" (PBin "*" (PBin "/" (PNum "1") (PBin "*" (PId "x") (PId "y"))) (PId "z")) /\
  py_reads "x < y*2" (PBin "<" (PId "x") (PBin "*" (PId "y") (PNum "2"))) /\
  py_reads "f(x, m.a[0, 1])" (PCall (PId "f") [PId "x"; PSub (PDot (PId "m") "a") [PNum "0"; PNum "1"]]).
Proof. repeat apply conj; apply (py_reads_by_parse 60); vm_compute; reflexivity. Qed.

(** The text of an expression is read back as an expression of the same value. *)
Theorem C52_text : forall I n T E s k e str,
  impl_ok I -> env_ok s -> doubles_ok T -> constants_named E ->
  wf s e -> named T E s e -> powers_fine I n s e ->
  plain_text I n T k e = Ok str ->
  exists t, py_reads str t /\ (forall t', py_reads str t' -> t' = t) /\ refines (pvalue E t) (eval s e).
Proof.
  intros I n T E s k e str HI Hs HT HC W N P H.
  destruct (plain_text_reads I HI n T E s Hs HT HC k e str (conj W (conj N P)) H) as (t & R & V).
  exists t. split; [assumption|]. split; [|assumption]. intros t' R'. exact (C52_unambiguous _ _ _ R' R).
Qed.
Print Assumptions C52_text.
(** In particular the real value. *)
Theorem C52_value : forall I n T E s k e str x t,
  impl_ok I -> env_ok s -> doubles_ok T -> constants_named E ->
  wf s e -> named T E s e -> powers_fine I n s e ->
  plain_text I n T k e = Ok str -> eval s e = Rv x -> py_reads str t -> pvalue E t = Rv x.
Proof.
  intros I n T E s k e str x t HI Hs HT HC W N P H V R.
  destruct (C52_text I n T E s k e str HI Hs HT HC W N P H) as (t' & _ & U & R'). rewrite (U t R).
  rewrite V in R'. exact R'.
Qed.
Print Assumptions C52_value.
(** Expressions with the same text have the same value. *)
Theorem C52_same_text : forall I n T E s k k' e e' str x x',
  impl_ok I -> env_ok s -> doubles_ok T -> constants_named E ->
  wf s e -> named T E s e -> powers_fine I n s e -> wf s e' -> named T E s e' -> powers_fine I n s e' ->
  plain_text I n T k e = Ok str -> plain_text I n T k' e' = Ok str ->
  eval s e = Rv x -> eval s e' = Rv x' -> x = x'.
Proof.
  intros I n T E s k k' e e' str x x' HI Hs HT HC W N P W' N' P' H H' V V'.
  destruct (C52_text I n T E s k e str HI Hs HT HC W N P H) as (t & R & _ & _).
  pose proof (C52_value _ _ _ _ _ _ _ _ _ _ HI Hs HT HC W N P H V R) as A.
  pose proof (C52_value _ _ _ _ _ _ _ _ _ _ HI Hs HT HC W' N' P' H' V' R) as B. congruence.
Qed.
Print Assumptions C52_same_text.

(** Doubles as fmt writes them, for a few of them. *)
Definition double_ex (f : f64) : string :=
  ((if Bsign f then "-" else "") ++
  match f with B754_zero _ => "0" | B754_infinity _ => "inf" | B754_nan => "nan" | B754_finite _ m x _ => "1.5e-3" end)%string.
Definition text_ex : text_params := mk_text_params
  (fun a => if String.eqb a "m" then TMatrix 2 2 else
            if String.eqb a "p" then TCustom "Pose" [("r", TMatrix 3 3); ("t", TMatrix 3 1); ("w", TScalar floating_point)] else TScalar floating_point)
  double_ex.
Lemma text_ex_ok : doubles_ok text_ex.
Proof.
  intros f. cbn [t_double text_ex]. unfold double_ex.
  destruct f as [b|b| |b m x B].
  - exists "0". split; [left; split; reflexivity|]. now destruct b.
  - exists "inf". split; [right; repeat split; reflexivity|]. now destruct b.
  - exists "nan". split; [right; repeat split; reflexivity|]. reflexivity.
  - exists "1.5e-3". split; [left; split; reflexivity|]. now destruct b.
Qed.
Definition txt (e : expr) : outcome string := plain_text impl_ex 20 text_ex 20 e.
Definition nvar (a : string) : expr := EVar (VNamed a real_set).
Definition parg (a : string) (i : Z) : expr := EVar (VArg a i prim_floating).
Definition dbl (b : bool) : f64 := B754_zero b.

(** x + y - 2 with signs, quotients, powers, relations, calls, accesses, doubles. *)
Example C52_text_ex :
  txt (EAdd [EMul [EInt (-3); vy]; vx; EInt (-2)]) = Ok "-2 + x - 3*y" /\
  txt (EMul [ERat (mk_rat (-3) 4); vx; EPow vy (EInt (-1)); EPow (EAdd [vx; vy]) (ERat (mk_rat (-1) 2))]) =
    Ok "-3*x/(4*y*(x + y)**(1/2))" /\
  txt (EPow (EInt (-2)) (EMul [EInt (-1); vx])) = Ok "(-2)**(-x)" /\
  txt (EAdd [parg "m" 3; EPow vx (EInt (-1))]) = Ok "m[1, 1] + 1/x" /\
  txt (EMul [parg "p" 5; EPow (EUneval (EAdd [parg "p" 10; parg "p" 12])) (EInt 3)]) = Ok "p.r[1, 2]*(p.t[1, 0] + p.w)**3" /\
  txt (ECond (ERel RLe vx (EMul [EInt 2; vy])) (ESymFn "f" [vx; vy]) (EFun Fatan2 [vy; vx])) =
    Ok "where(x <= 2*y, f(x, y), atan2(y, x))" /\
  txt (EMul [EPow vx (EInt (-1)); EPow vy (EInt (-1))]) = Ok "1/(x*y)" /\
  txt (EPow (EPow vx vy) vp) = Ok "(x**y)**p" /\
  txt (EMul [EFlt (Bopp f64_one); EVar (VUnique 7 real_set)]) = Ok "-1.5e-3*$u_7".
Proof. repeat apply conj; vm_compute; reflexivity. Qed.

(** All conditions are met for 3*x/y - 2 with x = 2 and y = 4: the text is read as -1/2. *)
Definition ratio : expr := EAdd [EMul [EInt 3; vx; EPow vy (EInt (-1))]; EInt (-2)].
Definition shown_ratio : list expr :=
  [ratio; EMul [EInt 3; vx; EPow vy (EInt (-1))]; EInt (-2); EInt 3; vx; EPow vy (EInt (-1)); vy; EInt (-1); EInt 1; EInt 2; EInt (-3);
   EMul [vx; EPow vy (EInt (-1))]; EMul [EInt (-3); vx; EPow vy (EInt (-1))]].
Lemma shown_ratio_all e d : shows impl_ex 20 e d -> e = ratio -> In d shown_ratio.
Proof.
  intros K. induction K as [e|e c d K IH Hd|e c k m K IH Hk|e l t t' K IH Ht Hn|e p x x' K IH Hx Hn]; intros H.
  - subst e. left. reflexivity.
  - specialize (IH H). clear - IH Hd. repeat destruct IH as [<-|IH]; try contradiction; cbn in Hd; unfold shown_ratio; repeat destruct Hd as [<-|Hd]; try contradiction; cbn; tauto.
  - specialize (IH H). clear - IH Hk. repeat destruct IH as [<-|IH]; try contradiction; vm_compute in Hk; injection Hk as <- <-; cbn; tauto.
  - specialize (IH H). clear - IH Ht Hn. repeat destruct IH as [IH|IH]; try discriminate IH; try contradiction. injection IH as <-.
    repeat destruct Ht as [<-|Ht]; try contradiction; vm_compute in Hn; injection Hn as <-; cbn; tauto.
  - specialize (IH H). clear - IH Hn. repeat destruct IH as [IH|IH]; try discriminate IH; try contradiction. injection IH as <- <-.
    vm_compute in Hn; injection Hn as <-; cbn; tauto.
Qed.
Definition env_ratio : env := mk_env (fun v => match v with VNamed "x" _ => 2%R | VNamed "y" _ => 4%R | _ => 1%R end) (fun _ _ => 0%R).
Definition penv_ratio : penv := mk_penv (fun a _ => match a with "x" => Rv 2 | "y" => Rv 4 | "pi" => Rv PI | "E" => Rv (exp 1) | _ => Fin end) (fun _ _ => 0%R).
Example C52_value_ex : txt ratio = Ok "-2 + 3*x/y" /\ exists t, py_reads "-2 + 3*x/y" t /\ pvalue penv_ratio t = Rv (-1/2).
Proof.
  assert (H : txt ratio = Ok "-2 + 3*x/y") by (vm_compute; reflexivity). split; [exact H|].
  assert (Hs : env_ok env_ratio).
  { intros v. unfold in_set. destruct v as [a st|a i st|i st]; cbn [var_set ExprSpec.ev env_ratio].
    - destruct st; auto; repeat (destruct a as [|[[] [] [] [] [] [] [] []] a]; try lra).
    - auto.
    - destruct st; auto; lra. }
  assert (W : wf env_ratio ratio) by (cbn; unfold in_i64, INT64_MIN, INT64_MAX; repeat split; try lia; repeat constructor).
  assert (N : named text_ex penv_ratio env_ratio ratio) by (cbn; repeat split; reflexivity).
  assert (C : constants_named penv_ratio) by (repeat split; reflexivity).
  assert (P : powers_fine impl_ex 20 env_ratio ratio).
  { intros b x Sh. apply shown_ratio_all in Sh; [|reflexivity]. repeat destruct Sh as [Sh|Sh]; try discriminate Sh; try contradiction. injection Sh as <- <-.
    split.
    - intros _. split.
      + cbn. destruct (Rlt_dec 0 4); [discriminate|lra].
      + intros _ K. cbn in K. injection K as K. lra.
    - intros _ c. discriminate. }
  destruct (C52_text impl_ex 20 text_ex penv_ratio env_ratio 20 ratio _ impl_ex_ok Hs text_ex_ok C W N P H) as (t & R & _ & V).
  exists t. split; [assumption|].
  assert (E : eval env_ratio ratio = Rv (-1/2)).
  { cbn. destruct (Rlt_dec 0 4); [|lra]. cbn. f_equal. replace (-1)%R with (- (1))%R by lra. rewrite Rpower_Ropp, Rpower_1 by lra. field. }
  now rewrite E in V.
Qed.
(** 2 + x is written in the same way for both orders of its terms. *)
Example C52_same_text_ex : txt (EAdd [EInt 2; vx]) = Ok "2 + x" /\ txt (EAdd [vx; EInt 2]) = Ok "2 + x".
Proof. split; vm_compute; reflexivity. Qed.

(** Where the base of a power is zero, the text can have another value: 0^(-z) at z = -1 is 0, 1/0^z is not a number. *)
Theorem C52_pole_refuted : exists I n T E s k e str,
  impl_ok I /\ env_ok s /\ doubles_ok T /\ constants_named E /\ wf s e /\ named T E s e /\
  plain_text I n T k e = Ok str /\ exists t, py_reads str t /\ eval s e = Rv 0 /\ pvalue E t = Top.
Proof.
  exists impl_ex, 20, text_ex, (mk_penv (fun a _ => match a with "x" => Rv 1 | "y" => Rv 0 | "z" => Rv (-1) | "pi" => Rv PI | "E" => Rv (exp 1) | _ => Fin end) (fun _ _ => 0%R)),
    (mk_env (fun v => match v with VNamed "y" real_set => 0%R | VNamed "z" real_set => (-1)%R | _ => 1%R end) (fun _ _ => 0%R)), 20,
    (EMul [vx; EPow vy (EMul [EInt (-1); nvar "z"])]), "x/y**z".
  split; [apply impl_ex_ok|]. split.
  { intros v. unfold in_set. destruct v as [a st|a i st|i st]; cbn [var_set ExprSpec.ev].
    - destruct st; auto; repeat (destruct a as [|[[] [] [] [] [] [] [] []] a]; try lra).
    - auto.
    - destruct st; auto; lra. }
  split; [apply text_ex_ok|]. split; [repeat split; reflexivity|].
  split; [cbn; unfold in_i64, INT64_MIN, INT64_MAX; repeat split; try lia; repeat constructor|].
  split; [cbn; repeat split; reflexivity|]. split; [vm_compute; reflexivity|].
  exists (PBin "/" (PId "x") (PBin "**" (PId "y") (PId "z"))). split; [apply (py_reads_by_parse 20); vm_compute; reflexivity|]. split.
  - cbn. destruct (Rlt_dec 0 0); [lra|]. destruct (Req_EM_T 0 0); [|lra]. destruct (Rlt_dec 0 (-1 * (-1 * 1))); [|lra]. cbn. f_equal. ring.
  - cbn. unfold bin_value. cbn. destruct (Rlt_dec 0 0); [lra|]. destruct (Req_EM_T 0 0); [|lra]. destruct (Rlt_dec 0 (-1)); [lra|reflexivity].
Qed.
Print Assumptions C52_pole_refuted.
(** A negative double is put in parentheses before it is raised to a power, but negative zero is not: the sign is
    applied to the power. *)
Theorem C52_negative_zero_refuted : exists I n T k f x str,
  impl_ok I /\ doubles_ok T /\ e_pow I n (EFlt f) x = Ok (EPow (EFlt f) x) /\
  plain_text I n T k (EPow (EFlt f) x) = Ok str /\ exists w t, py_reads str (PUn "-" (PBin "**" w t)) /\ t_double T f = "-0".
Proof.
  exists impl_ex, 20, text_ex, 20, (dbl true), vx, "-0**x".
  split; [apply impl_ex_ok|]. split; [apply text_ex_ok|]. split; [vm_compute; reflexivity|]. split; [vm_compute; reflexivity|].
  exists (PNum "0"), (PId "x"). split; [|vm_compute; reflexivity]. apply (py_reads_by_parse 20). vm_compute. reflexivity.
Qed.
Print Assumptions C52_negative_zero_refuted.
