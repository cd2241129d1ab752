From Coq Require Import String Ascii List ZArith Reals Bool Lia Lra SpecFloat.
From Flocq Require Import Core IEEE754.BinarySingleNaN.
From Verif Require Import Outcome CheckedIntModel RationalModel RationalSpec RationalProofs IntFloatModel ExprModel OrderSpec.
Import ListNotations.
Open Scope Z_scope.
Open Scope outcome_scope.

(** Expressions as labelled trees. *)
Inductive tree := T (l : list R) (c : list tree).

Fixpoint tree_ind' (P : tree -> Prop) (H : forall l c, Forall P c -> P (T l c)) (t : tree) : P t :=
  match t with
  | T l c => H l c ((fix go c := match c return Forall P c with
                                 | [] => Forall_nil P
                                 | x :: r => Forall_cons x (tree_ind' P H x) (go r)
                                 end) c)
  end.

Definition lexc {A} (f : A -> A -> comparison) : list A -> list A -> comparison :=
  fix go l m :=
    match l, m with
    | [], [] => Eq
    | [], _ :: _ => Lt
    | _ :: _, [] => Gt
    | a :: l', b :: m' => match f a b with Eq => go l' m' | c => c end
    end.

Fixpoint tcmp (t u : tree) : comparison :=
  match t, u with
  | T l c, T m d => match lexc Rcompare l m with Eq => lexc tcmp c d | x => x end
  end.

Definition good {A} (f : A -> A -> comparison) (a : A) : Prop :=
  (forall b, f b a = CompOpp (f a b)) /\ (forall b, f a b = Eq <-> a = b) /\
  (forall b c z, chain (f a b) (f b c) = Some z -> f a c = z).

Lemma chain_opp x : CompOpp (CompOpp x) = x. Proof. destruct x; auto. Qed.

Lemma lexc_good {A} (f : A -> A -> comparison) l : Forall (good f) l -> good (lexc f) l.
Proof.
  induction l as [|a l IH]; intros H.
  - split; [|split].
    + intros [|b m]; reflexivity.
    + intros [|b m]; cbn; split; intros; try discriminate; auto.
    + intros [|b m] [|c n] z; cbn; intros E; try (injection E as <-; reflexivity); try discriminate;
        try (destruct (f b c); discriminate); destruct (f b c); try (injection E as <-; auto; fail); try discriminate.
      all: try (destruct (lexc f m n); cbn in E; try discriminate; injection E as <-; auto).
  - pose proof (Forall_inv H) as (A1 & A2 & A3). destruct (IH (Forall_inv_tail H)) as (B1 & B2 & B3). split; [|split].
    + intros [|b m]; [reflexivity|]. cbn. rewrite A1, B1. destruct (f a b); reflexivity.
    + intros [|b m]; cbn; [split; intros; discriminate|]. split.
      * intros E. destruct (f a b) eqn:E1; try discriminate. apply A2 in E1. apply B2 in E. congruence.
      * intros E. injection E as -> ->. rewrite (proj2 (A2 b) eq_refl). apply B2; auto.
    + intros [|b m] [|c n] z; cbn; intros E; try (injection E as <-; reflexivity); try discriminate;
        try (destruct (f a b); [destruct (lexc f l m)| |]; cbn in E; try discriminate; injection E as <-; reflexivity).
      destruct (f a b) eqn:E1; destruct (f b c) eqn:E2; cbn in E; try discriminate.
      * rewrite (A3 b c Eq) by (rewrite E1, E2; reflexivity). apply (B3 m); auto.
      * rewrite (A3 b c Lt) by (rewrite E1, E2; reflexivity). destruct (lexc f l m); cbn in E; try discriminate; injection E as <-; auto.
      * rewrite (A3 b c Gt) by (rewrite E1, E2; reflexivity). destruct (lexc f l m); cbn in E; try discriminate; injection E as <-; auto.
      * rewrite (A3 b c Lt) by (rewrite E1, E2; reflexivity). destruct (lexc f m n); cbn in E; try discriminate; injection E as <-; auto.
      * rewrite (A3 b c Lt) by (rewrite E1, E2; reflexivity). injection E as <-; auto.
      * rewrite (A3 b c Gt) by (rewrite E1, E2; reflexivity). destruct (lexc f m n); cbn in E; try discriminate; injection E as <-; auto.
      * rewrite (A3 b c Gt) by (rewrite E1, E2; reflexivity). injection E as <-; auto.
Qed.

Lemma rcompare_good x : good Rcompare x.
Proof.
  split; [|split].
  - intros b. apply Rcompare_sym.
  - intros b. split; [apply Rcompare_Eq_inv|intros ->; apply Rcompare_Eq; auto].
  - intros b c z. destruct (Rcompare_spec x b); destruct (Rcompare_spec b c); cbn; intros E; try discriminate; injection E as <-;
      first [apply Rcompare_Lt; lra | apply Rcompare_Gt; lra | apply Rcompare_Eq; lra].
Qed.

Lemma tcmp_good t : good tcmp t.
Proof.
  induction t as [l c H] using tree_ind'.
  assert (HL : good (lexc Rcompare) l) by (apply lexc_good; apply Forall_forall; intros; apply rcompare_good).
  assert (HC : good (lexc tcmp) c) by (apply lexc_good; auto).
  destruct HL as (A1 & A2 & A3), HC as (B1 & B2 & B3). split; [|split].
  - intros [m d]. cbn. rewrite A1, B1. destruct (lexc Rcompare l m); reflexivity.
  - intros [m d]. cbn. split.
    + intros E. destruct (lexc Rcompare l m) eqn:E1; try discriminate. apply A2 in E1. apply B2 in E. congruence.
    + intros E. injection E as -> ->. rewrite (proj2 (A2 m) eq_refl). apply B2; auto.
  - intros [m d] [n e] z. cbn. intros E.
    destruct (lexc Rcompare l m) eqn:E1; destruct (lexc Rcompare m n) eqn:E2; cbn in E; try discriminate.
    + rewrite (A3 m n Eq) by (rewrite E1, E2; reflexivity). apply (B3 d); auto.
    + rewrite (A3 m n Lt) by (rewrite E1, E2; reflexivity). destruct (lexc tcmp c d); cbn in E; try discriminate; injection E as <-; auto.
    + rewrite (A3 m n Gt) by (rewrite E1, E2; reflexivity). destruct (lexc tcmp c d); cbn in E; try discriminate; injection E as <-; auto.
    + rewrite (A3 m n Lt) by (rewrite E1, E2; reflexivity). destruct (lexc tcmp d e); cbn in E; try discriminate; injection E as <-; auto.
    + rewrite (A3 m n Lt) by (rewrite E1, E2; reflexivity). injection E as <-; auto.
    + rewrite (A3 m n Gt) by (rewrite E1, E2; reflexivity). destruct (lexc tcmp d e); cbn in E; try discriminate; injection E as <-; auto.
    + rewrite (A3 m n Gt) by (rewrite E1, E2; reflexivity). injection E as <-; auto.
Qed.

(** ** Doubles *)
Definition f64_real (f : f64) : R :=
  match f with
  | B754_infinity true => (- bpow radix2 1024)%R
  | B754_infinity false => bpow radix2 1024
  | _ => B2R f
  end.

Lemma f64_bound (f : f64) : is_finite f = true -> (- bpow radix2 1024 < B2R f < bpow radix2 1024)%R.
Proof.
  intros H. pose proof (abs_B2R_lt_emax _ _ f) as A. apply Rabs_lt_inv in A. exact A.
Qed.

Lemma bcompare_real (a b : f64) : is_nan a = false -> is_nan b = false -> Bcompare a b = Some (Rcompare (f64_real a) (f64_real b)).
Proof.
  intros Ha Hb.
  assert (P := bpow_gt_0 radix2 1024).
  destruct (is_finite a) eqn:Fa; destruct (is_finite b) eqn:Fb.
  - rewrite Bcompare_correct by auto. destruct a; try discriminate; destruct b; try discriminate; reflexivity.
  - destruct b as [| [|] | |]; try discriminate; pose proof (f64_bound a Fa) as HB.
    + destruct a; try discriminate; cbn [f64_real] in *; unfold Bcompare; cbn [B2SF SFcompare];
        (replace (Rcompare _ _) with Gt by (symmetry; apply Rcompare_Gt; cbn [f64_real]; lra)); reflexivity.
    + destruct a; try discriminate; cbn [f64_real] in *; unfold Bcompare; cbn [B2SF SFcompare];
        (replace (Rcompare _ _) with Lt by (symmetry; apply Rcompare_Lt; cbn [f64_real]; lra)); reflexivity.
  - destruct a as [| [|] | |]; try discriminate; pose proof (f64_bound b Fb) as HB.
    + destruct b; try discriminate; cbn [f64_real] in *; unfold Bcompare; cbn [B2SF SFcompare];
        (replace (Rcompare _ _) with Lt by (symmetry; apply Rcompare_Lt; cbn [f64_real]; lra)); reflexivity.
    + destruct b; try discriminate; cbn [f64_real] in *; unfold Bcompare; cbn [B2SF SFcompare];
        (replace (Rcompare _ _) with Gt by (symmetry; apply Rcompare_Gt; cbn [f64_real]; lra)); reflexivity.
  - destruct a as [| [|] | |], b as [| [|] | |]; try discriminate; unfold Bcompare; cbn [B2SF SFcompare f64_real]; f_equal; symmetry;
      first [apply Rcompare_Eq; reflexivity|apply Rcompare_Lt; lra|apply Rcompare_Gt; lra].
Qed.

Lemma f64_lt_real (a b : f64) : is_nan a = false -> is_nan b = false ->
  f64_lt a b = match Rcompare (f64_real a) (f64_real b) with Lt => true | _ => false end.
Proof.
  intros Ha Hb. unfold f64_lt, Bltb, SFltb. pose proof (bcompare_real a b Ha Hb) as E. unfold Bcompare in E. rewrite E. reflexivity.
Qed.
Lemma f64_eq_real (a b : f64) : is_nan a = false -> is_nan b = false ->
  f64_eq a b = match Rcompare (f64_real a) (f64_real b) with Eq => true | _ => false end.
Proof.
  intros Ha Hb. unfold f64_eq, Beqb, SFeqb. pose proof (bcompare_real a b Ha Hb) as E. unfold Bcompare in E. rewrite E. reflexivity.
Qed.
Lemma f64_order_real (a b : f64) : is_nan a = false -> is_nan b = false -> f64_order a b = Rcompare (f64_real a) (f64_real b).
Proof.
  intros Ha Hb. unfold f64_order. rewrite !f64_lt_real by auto. rewrite (Rcompare_sym (f64_real b)).
  destruct (Rcompare _ _); reflexivity.
Qed.

(** ** The tree of an expression *)
Fixpoint codes (s : string) : list R :=
  match s with EmptyString => [] | String c s => IZR (char_code c) :: codes s end.
Definition name_tree (s : string) : tree := T (codes s) [].
Definition int_tree (z : Z) : tree := T [IZR z] [].
Definition var_trees (v : var) : list tree :=
  match v with
  | VNamed n s => [name_tree n; int_tree (set_rank s)]
  | VArg n i p => [name_tree n; int_tree i; int_tree (prim_rank p)]
  | VUnique i s => [int_tree i; int_tree (set_rank s)]
  end.
Definition rank (e : expr) : R := IZR (type_rank e).

Fixpoint tree_of (e : expr) : tree :=
  T [rank e]
    (match e with
     | EFlt f => [T [f64_real f] []]
     | EInt z => [int_tree z]
     | ERat q => [T [(IZR (num q) / IZR (den q))%R] []]
     | ESym c => [int_tree (symc_rank c)]
     | EInf | EImag | EUndef => []
     | EVar v => var_trees v
     | EMul l | EAdd l => map tree_of l
     | EPow a b => [tree_of a; tree_of b]
     | EFun f l => name_tree (fn_name f) :: map tree_of l
     | ESymFn n l => name_tree n :: map tree_of l
     | EUneval a | EIver a | EStop a => [tree_of a]
     | ECond a b c | ESubst a b c => [tree_of a; tree_of b; tree_of c]
     | EDeriv a b n => [int_tree n; tree_of a; tree_of b]
     | EBool b => [int_tree (Z.b2z b)]
     | ERel o a b => [int_tree (relop_rank o); tree_of a; tree_of b]
     end).

Lemma rcompare_IZR a b : Rcompare (IZR a) (IZR b) = (a ?= b).
Proof. apply Rcompare_IZR. Qed.

Lemma name_cmp a b : lexc Rcompare (codes a) (codes b) = string_order a b.
Proof.
  revert b. induction a as [|c a IH]; intros [|d b]; cbn; auto.
  rewrite rcompare_IZR, order_by_comparison_compare. destruct (_ ?= _); auto.
Qed.
Lemma char_code_inj c d : char_code c = char_code d -> c = d.
Proof.
  unfold char_code. intros H. rewrite <- (ascii_N_embedding c), <- (ascii_N_embedding d). f_equal.
  pose proof (N_ascii_bounded c). pose proof (N_ascii_bounded d).
  destruct (Z.ltb_spec (Z.of_N (N_of_ascii c)) 128), (Z.ltb_spec (Z.of_N (N_of_ascii d)) 128); lia.
Qed.
Lemma string_order_eqb a b : String.eqb a b = match string_order a b with Eq => true | _ => false end.
Proof.
  revert b. induction a as [|c a IH]; intros [|d b]; cbn; auto.
  rewrite order_by_comparison_compare. destruct (Ascii.eqb_spec c d) as [->|N].
  - rewrite Z.compare_refl. auto.
  - destruct (Z.compare_spec (char_code c) (char_code d)) as [E| |]; auto. apply char_code_inj in E. contradiction.
Qed.

Definition is_Eq (c : comparison) : bool := match c with Eq => true | _ => false end.
Lemma eqb_cmp a b : (a =? b) = is_Eq (a ?= b).
Proof. rewrite Z.eqb_compare. reflexivity. Qed.

(** [rel o c]: the outcome [o] is the comparison [c], or the process dies. *)
Definition rel (o : outcome comparison) (c : comparison) : Prop := o = Ok c \/ o = Dies.
Definition then_c (a b : comparison) : comparison := match a with Eq => b | _ => a end.
Lemma rel_then o c o' c' : rel o c -> rel o' c' -> rel (then_by o o') (then_c c c').
Proof. intros [->| ->] H; [|right; reflexivity]. destruct c; cbn; auto; left; reflexivity. Qed.
Lemma rel_ok c : rel (Ok c) c. Proof. left; reflexivity. Qed.

Lemma lexc_cons {A} (f : A -> A -> comparison) a l b m : lexc f (a :: l) (b :: m) = then_c (f a b) (lexc f l m).
Proof. cbn. destruct (f a b); reflexivity. Qed.
Lemma lex_rel (l : list expr) : Forall (fun a => forall b, plain a -> plain b -> rel (order a b) (tcmp (tree_of a) (tree_of b))) l ->
  forall m, all_of plain l -> all_of plain m -> rel (lex_order order l m) (lexc tcmp (map tree_of l) (map tree_of m)).
Proof.
  induction 1 as [|a l H _ IH]; intros [|b m] Hl Hm; try (left; reflexivity).
  cbn [map]. rewrite lexc_cons. cbn [lex_order]. apply rel_then; [apply H; [apply Hl|apply Hm]|apply IH; [apply Hl|apply Hm]].
Qed.

Section ind.
Variable P : expr -> Prop.
Hypothesis HA : forall e, (match e with
  | EMul l | EAdd l | EFun _ l | ESymFn _ l => Forall P l
  | EPow a b | EDeriv a b _ | ERel _ a b => P a /\ P b
  | EUneval a | EIver a | EStop a => P a
  | ECond a b c | ESubst a b c => P a /\ P b /\ P c
  | _ => True end) -> P e.
Fixpoint expr_ind2 (e : expr) : P e.
Proof.
  pose (fix go l := match l return Forall P l with
                    | [] => Forall_nil P
                    | x :: r => Forall_cons x (expr_ind2 x) (go r)
                    end) as G.
  apply HA. destruct e; auto.
Defined.
End ind.

Lemma tcmp_T l c m d : tcmp (T l c) (T m d) = then_c (lexc Rcompare l m) (lexc tcmp c d).
Proof. cbn [tcmp]. destruct (lexc Rcompare l m); reflexivity. Qed.
Lemma tcmp_int a b : tcmp (int_tree a) (int_tree b) = (a ?= b).
Proof. cbn. rewrite rcompare_IZR. destruct (a ?= b); reflexivity. Qed.
Lemma tcmp_name a b : tcmp (name_tree a) (name_tree b) = string_order a b.
Proof. cbn. rewrite name_cmp. destruct (string_order a b); reflexivity. Qed.
Lemma then_eq a : then_c a Eq = a. Proof. destruct a; reflexivity. Qed.
Lemma lexc1 a b : lexc tcmp [a] [b] = tcmp a b.
Proof. rewrite lexc_cons. cbn. apply then_eq. Qed.
Lemma lexc2 a b a' b' : lexc tcmp [a; b] [a'; b'] = then_c (tcmp a a') (tcmp b b').
Proof. rewrite lexc_cons, lexc1. reflexivity. Qed.
Lemma lexc3 a b c a' b' c' : lexc tcmp [a; b; c] [a'; b'; c'] = then_c (tcmp a a') (then_c (tcmp b b') (tcmp c c')).
Proof. rewrite lexc_cons, lexc2. reflexivity. Qed.

Lemma var_rel v w : type_rank (EVar v) = type_rank (EVar w) -> var_order v w = lexc tcmp (var_trees v) (var_trees w).
Proof.
  destruct v, w; cbn [type_rank]; intros E; try discriminate; cbn [var_order var_trees];
    rewrite ?lexc2, ?lexc3, ?tcmp_name, ?tcmp_int, ?order_by_comparison_compare; unfold then_c;
    repeat match goal with |- context [string_order ?a ?b] => destruct (string_order a b) end;
    repeat match goal with |- context [?a ?= ?b] => destruct (a ?= b) end; reflexivity.
Qed.

Lemma tcmp_rank a b : tcmp (tree_of a) (tree_of b) =
  then_c (type_rank a ?= type_rank b)
    (lexc tcmp (match tree_of a with T _ c => c end) (match tree_of b with T _ c => c end)).
Proof.
  assert (H : forall e, exists c, tree_of e = T [rank e] c) by (intros e; destruct e; cbn [tree_of]; eauto).
  destruct (H a) as [c Hc], (H b) as [d Hd]. rewrite Hc, Hd, tcmp_T. f_equal. unfold rank. cbn. rewrite rcompare_IZR.
  destruct (_ ?= _); reflexivity.
Qed.

Lemma Qcompare_real a b : canonical (num a) (den a) -> canonical (num b) (den b) ->
  QArith_base.Qcompare (ratQ a) (ratQ b) = Rcompare (IZR (num a) / IZR (den a)) (IZR (num b) / IZR (den b)).
Proof.
  intros (Ha & _) (Hb & _). unfold QArith_base.Qcompare, ratQ, frac. cbn [QArith_base.Qnum QArith_base.Qden].
  rewrite !Z2Pos.id by auto.
  assert (Ia : (0 < IZR (den a))%R) by (apply IZR_lt; auto). assert (Ib : (0 < IZR (den b))%R) by (apply IZR_lt; auto).
  rewrite <- rcompare_IZR, !mult_IZR.
  rewrite <- (Rcompare_mult_r (IZR (den a) * IZR (den b)) (IZR (num a) / _)) by nra.
  f_equal; field; lra.
Qed.

Theorem order_tree : forall a b, plain a -> plain b -> rel (order a b) (tcmp (tree_of a) (tree_of b)).
Proof.
  induction a as [a IH] using expr_ind2. intros b Ha Hb. rewrite tcmp_rank.
  assert (E : order a b = match type_rank a ?= type_rank b with Lt => Ok Lt | Gt => Ok Gt | Eq =>
      match a, b with
      | EFlt f, EFlt g => Ok (f64_order f g)
      | EInt x, EInt y => Ok (int_order x y)
      | ERat p, ERat q => rat_order p q
      | ESym c, ESym d => Ok (order_by_comparison (symc_rank c) (symc_rank d))
      | EVar v, EVar w => Ok (var_order v w)
      | EMul l, EMul m | EAdd l, EAdd m => lex_order order l m
      | EPow b e, EPow c f => then_by (order b c) (order e f)
      | EFun f l, EFun g m =>
          then_by (Ok (string_order (fn_name f) (fn_name g))) (lex_order order l m)
      | ESymFn f l, ESymFn g m => then_by (Ok (string_order f g)) (lex_order order l m)
      | EUneval a, EUneval b | EIver a, EIver b | EStop a, EStop b => order a b
      | ECond c a b, ECond c' a' b' => then_by (order c c') (then_by (order a a') (order b b'))
      | EDeriv f x n, EDeriv g y m =>
          then_by (Ok (order_by_comparison n m)) (then_by (order f g) (order x y))
      | ESubst i t r, ESubst i' t' r' => then_by (order i i') (then_by (order t t') (order r r'))
      | EBool x, EBool y => Ok (order_by_comparison (Z.b2z x) (Z.b2z y))
      | ERel o l r, ERel p l' r' =>
          then_by (Ok (order_by_comparison (relop_rank o) (relop_rank p)))
                  (then_by (order l l') (order r r'))
      | _, _ => Ok Eq
      end end).
  { destruct a; cbn [order]; rewrite order_by_comparison_compare; reflexivity. }
  rewrite E. clear E.
  destruct (Z.compare_spec (type_rank a) (type_rank b)) as [R| |]; try apply rel_ok. cbn [then_c].
  destruct a, b; cbn [type_rank] in R; try discriminate;
    try (destruct v; discriminate); cbn [tree_of]; rewrite ?lexc1, ?lexc2, ?lexc3.
  - cbn. rewrite f64_order_real by auto. destruct (Rcompare _ _); apply rel_ok.
  - rewrite tcmp_int. unfold int_order. rewrite order_by_comparison_compare. apply rel_ok.
  - rewrite tcmp_T. cbn [lexc]. rewrite then_eq. destruct (rat_order_spec r r0 Ha Hb) as [H1 H2].
    replace (match Rcompare _ _ with Eq => Eq | Lt => Lt | Gt => Gt end) with (QArith_base.Qcompare (ratQ r) (ratQ r0))
      by (rewrite Qcompare_real by auto; destruct (Rcompare _ _); reflexivity).
    destruct (Classical_Prop.classic (order_fits r r0)) as [F|F]; [left; auto|right; auto].
  - rewrite tcmp_int, order_by_comparison_compare. apply rel_ok.
  - apply rel_ok.
  - apply rel_ok.
  - apply rel_ok.
  - rewrite var_rel by exact R. apply rel_ok.
  - apply lex_rel; auto.
  - apply lex_rel; auto.
  - destruct IH, Ha, Hb. apply rel_then; auto.
  - rewrite lexc_cons, tcmp_name. apply rel_then; [apply rel_ok|apply lex_rel; auto].
  - rewrite lexc_cons, tcmp_name. apply rel_then; [apply rel_ok|apply lex_rel; auto].
  - apply IH; auto.
  - destruct IH as (I1 & I2 & I3), Ha as (? & ? & ?), Hb as (? & ? & ?). apply rel_then; auto. apply rel_then; auto.
  - apply IH; auto.
  - destruct IH, Ha, Hb. rewrite tcmp_int, order_by_comparison_compare. apply rel_then; [apply rel_ok|]. apply rel_then; auto.
  - destruct IH as (I1 & I2 & I3), Ha as (? & ? & ?), Hb as (? & ? & ?). apply rel_then; auto. apply rel_then; auto.
  - apply IH; auto.
  - rewrite tcmp_int, order_by_comparison_compare. apply rel_ok.
  - destruct IH, Ha, Hb. rewrite tcmp_int, order_by_comparison_compare. apply rel_then; [apply rel_ok|]. apply rel_then; auto.
Qed.

(** ** Identity *)
Lemma and_is_Eq a b : (is_Eq a && is_Eq b)%bool = is_Eq (then_c a b).
Proof. destruct a; reflexivity. Qed.
Lemma lex_ident (l : list expr) : Forall (fun a => forall b, plain a -> plain b -> ident a b = is_Eq (tcmp (tree_of a) (tree_of b))) l ->
  forall m, all_of plain l -> all_of plain m -> all2 ident l m = is_Eq (lexc tcmp (map tree_of l) (map tree_of m)).
Proof.
  induction 1 as [|a l H _ IH]; intros [|b m] Hl Hm; try reflexivity.
  cbn [map]. rewrite lexc_cons, <- and_is_Eq. cbn [all2]. rewrite H by (apply Hl || apply Hm). rewrite IH by (apply Hl || apply Hm). reflexivity.
Qed.
Lemma str_is_Eq a b : String.eqb a b = is_Eq (string_order a b).
Proof. apply string_order_eqb. Qed.

Lemma var_ident_rel v w : type_rank (EVar v) = type_rank (EVar w) ->
  var_ident v w = is_Eq (lexc tcmp (var_trees v) (var_trees w)).
Proof.
  destruct v, w; cbn [type_rank]; intros E; try discriminate; cbn [var_ident var_trees];
    rewrite ?lexc2, ?lexc3, ?tcmp_name, ?tcmp_int; unfold set_eqb; rewrite ?str_is_Eq, ?eqb_cmp, <- ?and_is_Eq, ?andb_assoc; reflexivity.
Qed.

Lemma ident_rank a b : type_rank a <> type_rank b -> ident a b = false.
Proof.
  destruct a, b; cbn [type_rank]; try congruence; try (destruct v; congruence); auto.
  destruct v, v0; cbn; congruence.
Qed.

Theorem ident_tree : forall a b, plain a -> plain b -> ident a b = is_Eq (tcmp (tree_of a) (tree_of b)).
Proof.
  induction a as [a IH] using expr_ind2. intros b Ha Hb. rewrite tcmp_rank.
  destruct (Z.compare_spec (type_rank a) (type_rank b)) as [R|R|R]; cbn [then_c is_Eq];
    [|apply ident_rank; lia|apply ident_rank; lia].
  destruct a, b; cbn [type_rank] in R; try discriminate;
    try (destruct v; discriminate); cbn [tree_of ident]; rewrite ?lexc1, ?lexc2, ?lexc3, <- ?and_is_Eq, ?tcmp_int, <- ?eqb_cmp.
  - cbn. rewrite f64_eq_real by auto. destruct (Rcompare _ _); reflexivity.
  - reflexivity.
  - rewrite tcmp_T. cbn [lexc]. rewrite then_eq.
    replace (match Rcompare _ _ with Eq => Eq | Lt => Lt | Gt => Gt end) with (QArith_base.Qcompare (ratQ r) (ratQ r0))
      by (rewrite Qcompare_real by auto; destruct (Rcompare _ _); reflexivity).
    pose proof (rat_eqb_spec r r0 Ha Hb) as H.
    destruct (QArith_base.Qcompare (ratQ r) (ratQ r0)) eqn:EQ; cbn [is_Eq].
    + apply H. apply QArith_base.Qeq_alt. exact EQ.
    + destruct (rat_eqb r r0); auto. apply proj1 in H. specialize (H eq_refl). apply QArith_base.Qeq_alt in H. congruence.
    + destruct (rat_eqb r r0); auto. apply proj1 in H. specialize (H eq_refl). apply QArith_base.Qeq_alt in H. congruence.
  - reflexivity.
  - reflexivity.
  - reflexivity.
  - reflexivity.
  - apply var_ident_rel; exact R.
  - apply lex_ident; auto.
  - apply lex_ident; auto.
  - destruct IH as [I1 I2], Ha, Hb. rewrite I1, I2; auto.
  - rewrite lexc_cons, tcmp_name, <- and_is_Eq, str_is_Eq. f_equal. apply lex_ident; auto.
  - rewrite lexc_cons, tcmp_name, <- and_is_Eq, str_is_Eq. f_equal. apply lex_ident; auto.
  - apply IH; auto.
  - destruct IH as (I1 & I2 & I3), Ha as (? & ? & ?), Hb as (? & ? & ?). rewrite I1, I2, I3, andb_assoc; auto.
  - apply IH; auto.
  - destruct IH as [I1 I2], Ha, Hb. rewrite I1, I2, andb_assoc; auto.
  - destruct IH as (I1 & I2 & I3), Ha as (? & ? & ?), Hb as (? & ? & ?). rewrite I1, I2, I3, andb_assoc; auto.
  - apply IH; auto.
  - destruct b0, b; reflexivity.
  - destruct IH as [I1 I2], Ha, Hb. rewrite I1, I2, andb_assoc; auto.
Qed.

(** ** Outcomes *)
Definition oflip (o : outcome comparison) : outcome comparison := let* c := o in Ok (CompOpp c).
Lemma flip_then o p : oflip (then_by o p) = then_by (oflip o) (oflip p).
Proof. destruct o as [[]| | | |]; reflexivity. Qed.
Lemma lex_flip (l : list expr) : Forall (fun a => forall b, plain a -> plain b -> order b a = oflip (order a b)) l ->
  forall m, all_of plain l -> all_of plain m -> lex_order order m l = oflip (lex_order order l m).
Proof.
  induction 1 as [|a l H _ IH]; intros [|b m] Hl Hm; try reflexivity.
  cbn [lex_order]. destruct Hl, Hm. rewrite flip_then, H, IH by auto. reflexivity.
Qed.
Lemma obc_flip a b : order_by_comparison b a = CompOpp (order_by_comparison a b).
Proof. rewrite !order_by_comparison_compare. apply Z.compare_antisym. Qed.
Lemma str_flip a b : string_order b a = CompOpp (string_order a b).
Proof. revert b; induction a as [|c a IH]; intros [|d b]; cbn; auto. rewrite (obc_flip (char_code c)). destruct (order_by_comparison _ _); cbn; auto. Qed.
Lemma bcompare_flip (a b : f64) : f64_order b a = CompOpp (f64_order a b).
Proof.
  unfold f64_order. destruct (f64_lt a b) eqn:E1; destruct (f64_lt b a) eqn:E2; auto.
  exfalso. unfold f64_lt, Bltb, SFltb in *. fold (Bcompare a b) in E1. fold (Bcompare b a) in E2.
  rewrite Bcompare_swap in E2. destruct (Bcompare a b) as [[]|]; discriminate.
Qed.
Lemma var_flip v w : var_order w v = CompOpp (var_order v w).
Proof.
  destruct v, w; cbn; auto; rewrite ?(str_flip name), ?(obc_flip index), ?(obc_flip (set_rank set)), ?(obc_flip (prim_rank type)).
  - destruct (string_order _ _); cbn; auto.
  - destruct (string_order _ _); cbn; auto. destruct (order_by_comparison _ _); cbn; auto.
  - destruct (order_by_comparison _ _); cbn; auto.
Qed.
Lemma rat_flip a b : canon a -> canon b -> rat_order b a = oflip (rat_order a b).
Proof.
  intros Ha Hb. destruct (rat_order_spec a b Ha Hb) as [A1 A2], (rat_order_spec b a Hb Ha) as [B1 B2].
  assert (S : order_fits a b <-> order_fits b a) by (unfold order_fits; intuition).
  destruct (Classical_Prop.classic (order_fits a b)) as [F|F].
  - rewrite A1, B1 by tauto. cbn. rewrite QArith_base.Qcompare_antisym. reflexivity.
  - rewrite A2, B2 by tauto. reflexivity.
Qed.

Theorem order_flip : forall a b, plain a -> plain b -> order b a = oflip (order a b).
Proof.
  induction a as [a IH] using expr_ind2. intros b Ha Hb.
  destruct (order_by_comparison (type_rank a) (type_rank b)) eqn:E.
  2, 3: assert (E' := obc_flip (type_rank a) (type_rank b)); rewrite E in E'; cbn in E';
    destruct a; destruct b; cbn [order]; rewrite ?E, ?E'; (reflexivity || (vm_compute in E; discriminate E)).
  assert (E' := obc_flip (type_rank a) (type_rank b)); rewrite E in E'; cbn in E'.
  destruct a, b; cbn [order]; rewrite ?E, ?E'; try reflexivity; cbn [oflip bind].
  - rewrite bcompare_flip. reflexivity.
  - unfold int_order. rewrite obc_flip. reflexivity.
  - apply rat_flip; auto.
  - rewrite obc_flip. reflexivity.
  - rewrite var_flip. reflexivity.
  - apply lex_flip; auto.
  - apply lex_flip; auto.
  - destruct IH as [I1 I2], Ha, Hb. rewrite flip_then, <- I1, <- I2 by auto. reflexivity.
  - rewrite flip_then, lex_flip, str_flip by auto. reflexivity.
  - rewrite flip_then, lex_flip, str_flip by auto. reflexivity.
  - apply IH; auto.
  - destruct IH as (I1 & I2 & I3), Ha as (? & ? & ?), Hb as (? & ? & ?). rewrite !flip_then, <- I1, <- I2, <- I3 by auto. reflexivity.
  - apply IH; auto.
  - destruct IH as [I1 I2], Ha, Hb. rewrite !flip_then, <- I1, <- I2, (obc_flip n) by auto. reflexivity.
  - destruct IH as (I1 & I2 & I3), Ha as (? & ? & ?), Hb as (? & ? & ?). rewrite !flip_then, <- I1, <- I2, <- I3 by auto. reflexivity.
  - apply IH; auto.
  - rewrite obc_flip. reflexivity.
  - destruct IH as [I1 I2], Ha, Hb. rewrite !flip_then, <- I1, <- I2, (obc_flip (relop_rank o)) by auto. reflexivity.
Qed.

(** Identical expressions never reach the cross multiplication. *)
Lemma lex_refl (l : list expr) : Forall (fun a => forall b, ident a b = true -> plain a -> plain b -> order a b = Ok Eq) l ->
  forall m, all2 ident l m = true -> all_of plain l -> all_of plain m -> lex_order order l m = Ok Eq.
Proof.
  induction 1 as [|a l H _ IH]; intros [|b m] E Hl Hm; try reflexivity; try discriminate.
  cbn [all2] in E. apply andb_prop in E as [E1 E2]. cbn [lex_order].
  rewrite H by (auto; apply Hl || apply Hm). apply IH; auto; apply Hl || apply Hm.
Qed.
Theorem ident_order : forall a b, ident a b = true -> plain a -> plain b -> order a b = Ok Eq.
Proof.
  induction a as [a IH] using expr_ind2. intros b E Ha Hb.
  assert (R : type_rank a = type_rank b).
  { destruct (Z.eq_dec (type_rank a) (type_rank b)); auto. rewrite ident_rank in E by auto. discriminate. }
  destruct (order_tree a b Ha Hb) as [O|O]; [rewrite O|exfalso].
  { rewrite ident_tree in E by auto. destruct (tcmp _ _); try discriminate. reflexivity. }
  assert (RR : order_by_comparison (type_rank a) (type_rank b) = Eq) by (rewrite order_by_comparison_compare, R; apply Z.compare_refl).
  destruct a, b; cbn [order] in O; rewrite RR in O; try discriminate O; cbn [ident] in E;
    rewrite ?str_is_Eq, ?eqb_cmp, <- ?order_by_comparison_compare in E;
    repeat match goal with
    | H : (_ && _)%bool = true |- _ => apply andb_prop in H as [? ?]
    | H : is_Eq ?x = true |- _ => destruct x eqn:?; try discriminate H; clear H
    end; cbn [then_by bind] in O.
  - unfold rat_order in O. unfold rat_eqb in E. apply andb_prop in E as [E1 E2]. rewrite E2 in O. discriminate.
  - rewrite (lex_refl l IH) in O by auto. discriminate.
  - rewrite (lex_refl l IH) in O by auto. discriminate.
  - destruct IH, Ha, Hb. rewrite H1, H2 in O by auto. discriminate.
  - rewrite (lex_refl l IH) in O by auto. discriminate.
  - rewrite (lex_refl l IH) in O by auto. discriminate.
  - rewrite IH in O by auto. discriminate.
  - destruct IH as (I1 & I2 & I3), Ha as (? & ? & ?), Hb as (? & ? & ?). rewrite I1 in O by auto. cbn [then_by bind] in O. rewrite I2 in O by auto. cbn [then_by bind] in O. rewrite I3 in O by auto. discriminate.
  - rewrite IH in O by auto. discriminate.
  - destruct IH as (I1 & I2), Ha as (? & ?), Hb as (? & ?). rewrite I1 in O by auto. cbn [then_by bind] in O. rewrite I2 in O by auto. discriminate.
  - destruct IH as (I1 & I2 & I3), Ha as (? & ? & ?), Hb as (? & ? & ?). rewrite I1 in O by auto. cbn [then_by bind] in O. rewrite I2 in O by auto. cbn [then_by bind] in O. rewrite I3 in O by auto. discriminate.
  - rewrite IH in O by auto. discriminate.
  - destruct IH as (I1 & I2), Ha as (? & ?), Hb as (? & ?). rewrite I1 in O by auto. cbn [then_by bind] in O. rewrite I2 in O by auto. discriminate.
Qed.
