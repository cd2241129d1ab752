(** C54: the Rust text of an expression is read as the expression it was printed from. *)
From Coq Require Import String Ascii List Arith ZArith Bool Lia DecimalString.
From Verif Require PlainLex.
From Verif Require Import BuildModel PassModel StmtModel PipeModel PipeProps.
From Verif Require Import CppSpec CppParse RustSpec RustParse PlainSpec Outcome ExprModel BuildProps IrModel LowerModel LowerProps AstModel AstSpec
  AstProofs AstTree AstProps RustModel RustCodeSpec RustProofs RustTree.
Import IrModel AstModel.
Import ListNotations.
Open Scope string_scope.
Open Scope nat_scope.

(** ** A machine for the examples: whole numbers, and truth values, which have no arithmetic. *)
Inductive rcell := CZ (z : Z) | CB (b : bool) | CPair (a b : Z) | CBad.
Fixpoint leading_digits (s : string) : string :=
  match s with String c t => if is_digit c then String c (leading_digits t) else "" | _ => "" end.
Definition rnum_cell (s : string) : rcell :=
  match NilZero.int_of_string (leading_digits s) with Some d => CZ (Z.of_int d) | None => CBad end.
Definition ron2 (f : Z -> Z -> Z) (a b : rcell) : rcell := match a, b with CZ x, CZ y => CZ (f x y) | _, _ => CBad end.
Definition rtest2 (f : Z -> Z -> bool) (a b : rcell) : rcell := match a, b with CZ x, CZ y => CB (f x y) | _, _ => CBad end.
Definition rneg_cell (a : rcell) : rcell := match a with CZ z => CZ (- z) | _ => CBad end.
Definition rcmp_cell (r : rel_op) : rcell -> rcell -> rcell :=
  match r with RLt => rtest2 Z.ltb | RLe => rtest2 Z.leb | REq => rtest2 Z.eqb end.
Definition rbin_cell (o : string) : rcell -> rcell -> rcell :=
  if String.eqb o "+" then ron2 Z.add else if String.eqb o "-" then ron2 Z.sub else if String.eqb o "*" then ron2 Z.mul
  else if String.eqb o "/" then ron2 Z.quot else if String.eqb o "<" then rcmp_cell RLt else if String.eqb o "<=" then rcmp_cell RLe
  else if String.eqb o "==" then rcmp_cell REq else fun _ _ => CBad.
Definition rcond_cell (c a b : rcell) : rcell := match c with CB z => if z then a else b | _ => CBad end.
Definition rcast_cell (t : numeric) (a : rcell) : rcell :=
  match t, a with
  | NBool, CB b => CB b
  | NBool, _ => CBad
  | _, CZ z => CZ z
  | _, CB b => CZ (b2z b)
  | _, _ => CBad
  end.
Definition ras_cell (a : rcell) (p : list string) : rcell :=
  match p with
  | [s] => if String.eqb s "bool" then rcast_cell NBool a else if String.eqb s "i64" then rcast_cell NInt a
           else if String.eqb s "f64" then rcast_cell NFloat a else CBad
  | _ => CBad
  end.
Definition rstd_cell (f : std_fn) (l : list rcell) : rcell :=
  match f, l with
  | F_abs, [CZ z] => CZ (Z.abs z)
  | F_floor, [CZ z] => CZ z
  | F_signum, [CZ z] => CZ (Z.sgn z)
  | F_powi, [CZ a; CZ b] | F_powf, [CZ a; CZ b] => CZ (a ^ b)
  | _, _ => CBad
  end.
Definition relem_cell (a : rcell) (r c : Z) : rcell := match a with CZ a => CZ (a + 10 * r + c) | _ => CBad end.
Definition rmethod_cell (a : rcell) (f : string) (l : list rcell) : rcell :=
  match l with
  | [CZ r; CZ c] => if String.eqb f "get" then relem_cell a r c else CBad
  | [] => if String.eqb f "abs" then rstd_cell F_abs [a] else if String.eqb f "floor" then rstd_cell F_floor [a] else CBad
  | [b] => if String.eqb f "powi" || String.eqb f "powf" then rstd_cell F_powi [a; b] else CBad
  | _ => CBad
  end.
Definition rid_cell (env : string -> Z) (p : list string) : rcell :=
  match p with
  | [s] => CZ (env s)
  | [_; _; m; s] => if String.eqb m "consts" then if String.eqb s "E" then CZ 2 else if String.eqb s "PI" then CZ 3 else CBad else CBad
  | _ => CBad
  end.
Definition rcall_cell (f : rcell) (l : list rcell) : rcell := match f, l with CZ a, [CZ b] => CZ (a + 100 * b) | _, _ => CBad end.
Definition rs_machine (env : string -> Z) : rust :=
  Build_rust rcell (rid_cell env) rnum_cell CB
    (fun o a => if String.eqb o "-" then rneg_cell a else if String.eqb o "&" then a else CBad)
    rbin_cell ras_cell rcall_cell rmethod_cell (fun a f => match a with CZ z => CZ (z + env f) | _ => CBad end)
    (fun a i => match i with CPair r c => relem_cell a r c | _ => CBad end)
    (fun l => match l with [CZ r; CZ c] => CPair r c | _ => CBad end) rcond_cell.
Definition rs_integers (env : string -> Z) (ftext : load_src -> string) : meaning rcell :=
  Build_meaning rcell (fun s => CZ (env s)) (fun s _ => CZ (env s)) (fun v r c => relem_cell v (Z.of_nat r) (Z.of_nat c))
    (fun a f => match a with CZ z => CZ (z + env f) | _ => CBad end) CZ
    (fun l => match ftext l with
              | String c s => if Ascii.eqb c "-" then rneg_cell (rnum_cell s) else rnum_cell (String c s)
              | s => rnum_cell s
              end)
    CB (fun c => match c with SEuler => CZ 2 | SPi => CZ 3 end)
    (ron2 Z.add) (ron2 Z.mul) (ron2 Z.quot) rneg_cell rcmp_cell rcond_cell rcast_cell rstd_cell
    (fun f b l => let v := rcall_cell (CZ (env f)) l in if b then rcast_cell NFloat v else v).

Lemma leading_uint d s : leading_digits s = "" -> leading_digits (NilEmpty.string_of_uint d ++ s) = NilEmpty.string_of_uint d.
Proof. intros E. induction d; cbn; rewrite ?IHd; auto. Qed.
Lemma leading_zero d s : leading_digits s = "" -> leading_digits (NilZero.string_of_uint d ++ s) = NilZero.string_of_uint d.
Proof. intros E. destruct d; try (cbn; rewrite leading_uint by assumption; reflexivity). cbn. now rewrite E. Qed.
Lemma rnum_dec z s : (0 <= z)%Z -> leading_digits s = "" -> rnum_cell (dec z ++ s) = CZ z.
Proof.
  intros L E. assert (leading_digits (dec z ++ s) = dec z) as H.
  { destruct z as [|p|p]; [|apply (leading_zero (Pos.to_uint p) s E)|lia]. cbn. now rewrite E. }
  unfold rnum_cell. rewrite H, PlainLex.dec_string. now rewrite DecimalZ.of_to.
Qed.
Lemma rnum_nat n : rnum_cell (dec_nat n) = CZ (Z.of_nat n).
Proof. rewrite <- (sapp_nil (dec_nat n)). apply rnum_dec; [lia|reflexivity]. Qed.
Lemma leading_tail s : leading_digits (s ++ "f64") = leading_digits s.
Proof. induction s as [|c s IH]; [reflexivity|]. cbn. now rewrite IH. Qed.
Lemma rs_machine_faithful env ftext : rs_faithful ftext (rs_machine env) (rs_integers env ftext).
Proof.
  constructor; try (intros; reflexivity).
  - intros v r c. cbn. now rewrite !rnum_nat.
  - intros v r c. cbn. now rewrite !rnum_nat.
  - intros z L. cbn. apply rnum_dec; [lia|reflexivity].
  - intros z L. cbn. rewrite rnum_dec by (lia || reflexivity). reflexivity.
  - intros l s <- K. cbn. unfold rnum_cell at 1. rewrite leading_tail. destruct (ftext l) as [|c t]; [reflexivity|].
    destruct (Ascii.eqb_spec c "-") as [Q|]; [|reflexivity]. subst c. cbn in K. now destruct K.
  - intros l s E _. cbn. rewrite E. unfold rnum_cell. rewrite leading_tail. reflexivity.
  - intros r a b. destruct r; reflexivity.
  - intros t a. destruct t; reflexivity.
  - intros f a N1 N2 A. destruct f; try reflexivity; try discriminate; congruence.
  - intros f a b A. destruct f; try discriminate A; destruct a, b; reflexivity.
  - intros a. destruct a; reflexivity.
  - intros a. destruct a as [z| | |]; try reflexivity. cbn. destruct z; reflexivity.
Qed.

(** ** The texts that are read as they are meant *)

(** No text has two readings: casts bind tighter than products, a less-than sign behind the type of a cast belongs to the
    type, and a method is not a field that is called. *)
Theorem C54_unambiguous : forall s t t', rs_reads s t -> rs_reads s t' -> t = t'.
Proof. intros s t t' [z H] [z' H']. exact (rs_unambiguous _ _ _ _ _ H H'). Qed.
Print Assumptions C54_unambiguous.
Example C54_unambiguous_ex :
  rs_reads "-x as f64 * y.f.get(0, 1)[(2, 3)]"
    (RBin "*" (RCast (RUn "-" (RId ["x"])) ["f64"])
       (RIndex (RMethod (RField (RId ["y"]) "f") "get" [RNum "0"; RNum "1"]) (RTuple [RNum "2"; RNum "3"]))) /\
  rs_reads "(x as f64) < y" (RBin "<" (RCast (RId ["x"]) ["f64"]) (RId ["y"])) /\
  rparse 40 0 (rs_lex "x as f64 < y") = None /\ forall t, ~ rs_reads "x < y < z" t.
Proof.
  split; [apply (rs_reads_by_parse 40); vm_compute; reflexivity|].
  split; [apply (rs_reads_by_parse 40); vm_compute; reflexivity|]. split; [vm_compute; reflexivity|].
  intros t [z R]. apply (proj1 rparse_complete) in R. specialize (R [] Logic.I) as [k K].
  specialize (K (40 + k) ltac:(lia)). rewrite app_nil_r in K. vm_compute in K. discriminate.
Qed.

(** The text of a tree whose operands hold together tightly enough is an expression; it is read in one way, and has the
    value that the tree stands for. *)
Theorem C54_text : forall ftext custom borrows e, rs_fits ftext borrows e ->
  exists t, rs_reads (rs_text ftext custom borrows e) t /\
    (forall t', rs_reads (rs_text ftext custom borrows e) t' -> t' = t) /\
    forall R M, rs_faithful ftext R M -> rs_eval R t = value_of M e.
Proof.
  intros ftext custom borrows e F. destruct (rs_text_reads ftext custom borrows e F) as (t & R & Me).
  exists t. split; [exact R|]. split; [|exact Me]. intros t' R'. exact (C54_unambiguous _ _ _ R' R).
Qed.
Print Assumptions C54_text.
Definition minus_seven : load_src -> string := fun _ => "-7.5".
Definition no_custom : string -> bool := fun _ => false.
Definition borrow_first : string -> nat -> bool := fun _ i => i =? 0.
Definition rs_ex : ast :=
  AAdd [AStd F_signum [AVar "x"]; ANeg (ANeg (AVar "y"));
        AMul [AFloat (LInt 0); ATernary (ACompare RLt (AVar "x") (AVar "y")) (AElem (AArg "m" true) 0 2) (ACast NFloat (AInt (-3)))];
        ACall "g" true [AElem (AVar "x") 1 2]].
Example C54_text_ex :
  rs_fits minus_seven borrow_first rs_ex /\
  rs_text minus_seven no_custom borrow_first rs_ex =
    "(0.0f64 < x) as i64 - (x < 0.0f64) as i64 + --y + -7.5f64 * if (x) < (y) { m.get(0, 2) } else { (-3i64) as f64 } + g(&x[(1, 2)]) as f64" /\
  value_of (rs_integers env_ex minus_seven) rs_ex = CZ 1046.
Proof.
  split; [|repeat split; vm_compute; reflexivity].
  apply rf_add; cbn; try lia.
  - apply rf_std; [repeat constructor|reflexivity|]. intros _. constructor; [|constructor]. split; [cbn; lia|reflexivity].
  - constructor; [apply rf_neg; [apply rf_neg; [now apply rf_var|cbn; lia]|cbn; lia]|]. constructor; [|constructor; [|constructor]].
    + apply rf_mul; cbn; try lia.
      * now apply (rf_float _ _ _ "7.5"); [|right].
      * constructor; [|constructor]. apply rf_ternary.
        -- apply rf_compare; now apply rf_var.
        -- apply rf_elem; [now apply rf_arg|reflexivity].
        -- apply rf_cast, rf_int. unfold two63; lia.
      * repeat constructor.
    + apply rf_call; [repeat split| |].
      * constructor; [|constructor]. apply rf_elem; [now apply rf_var|reflexivity].
      * intros [|i] a H _; [|destruct i; discriminate]. injection H as <-. cbn. lia.
  - repeat constructor.
Qed.

(** The same for a value of a block, if its operations, and those it needs that have no variable of their own, keep to
    the pairs of operations that [rs_printable] allows. *)
Theorem C54_value : forall ftext custom borrows N g d k n e,
  rs_names_ok N -> (forall v, v < g_next g -> node_ok g v) -> (forall v, v < g_next g -> rs_printable ftext borrows g d v) ->
  n < g_next g -> visit_value N g d k n = Ok e ->
  exists t, rs_reads (rs_text ftext custom borrows e) t /\
    (forall t', rs_reads (rs_text ftext custom borrows e) t' -> t' = t) /\
    forall R M E, rs_faithful ftext R M -> valuation M N g d E ->
      operation_value M N (op_of g n) (ty_of g n) (map E (args g n)) = Some (rs_eval R t).
Proof.
  intros ftext custom borrows N g d k n e NO NK PR L H.
  destruct (C54_text ftext custom borrows e (rvisit_fit ftext borrows N g d NK NO PR k n e L H)) as (t & R & U & V).
  exists t. split; [exact R|]. split; [exact U|]. intros P M E FF VE. rewrite (V P M FF).
  exact (visit_means N g d NK M E VE k n e L H).
Qed.
Print Assumptions C54_value.
(** A sign at the front of a sum, a cast last, and the sign of a product. *)
Definition rs_block_ex : graph := graph_of
  [(OLoad (LVar 0), num NFloat, []); (OMul, num NFloat, [0; 0]); (OLoad (LArg 0 5), num NFloat, []);
   (OLoad (LInt (-3)), num NInt, []); (OCast NFloat, num NFloat, [3]); (OCallStd F_signum, num NFloat, [1]);
   (OAdd, num NFloat, [5; 1; 2; 4]); (OCompare RLe, num NBool, [6; 1]); (OCond, num NFloat, [7; 6; 5]);
   (ONeg, num NFloat, [8]); (ONeg, num NFloat, [9]); (ODiv, num NFloat, [10; 6]); (OCallExt "g", num NFloat, [0; 11])].
Example C54_value_ex :
  rs_names_ok names_ex /\ (forall v, v < g_next rs_block_ex -> node_ok rs_block_ex v) /\
  (forall v, v < g_next rs_block_ex -> rs_printable no_floats borrow_first rs_block_ex [6] v) /\
  (let* e := visit_value names_ex rs_block_ex [6] 20 12 in Ok (rs_text no_floats no_custom borrow_first e))%outcome =
    Ok "g(&x, --if ((v06) <= (x * x)) { v06 } else { (0.0f64 < x * x) as i64 - (x * x < 0.0f64) as i64 } / v06) as f64" /\
  (let* e := visit_value names_ex rs_block_ex [6] 20 6 in Ok (rs_text no_floats no_custom borrow_first e))%outcome =
    Ok "(0.0f64 < x * x) as i64 - (x * x < 0.0f64) as i64 + x * x + m.get(1, 2) + (-3i64) as f64".
Proof.
  split; [|split; [|split; [|split]]].
  - constructor; cbn [names_ex n_args n_vars].
    + intros [|i] s t H; [|discriminate]. injection H as <- <-. repeat split.
    + intros [|v]; repeat split.
  - intros v L. cbn in L. constructor.
    + do 13 (destruct v as [|v]; [cbn; intuition (subst; lia)|]). lia.
    + do 13 (destruct v as [|v]; [cbn; auto; lia|]). lia.
  - intros v L. cbn in L. constructor.
    + do 13 (destruct v as [|v]; [cbn; try exact Logic.I; try (repeat split; fail); unfold two63; try lia; repeat split|]). lia.
    + do 13 (destruct v as [|v]; [cbn; intros a r H; inversion H; subst; cbn; auto|]). lia.
    + do 13 (destruct v as [|v]; [cbn; intros a b r H; inversion H; subst; cbn; intuition (subst; reflexivity)|]). lia.
    + intros a Eo Ia _ T. assert (v = 5) as -> by (do 13 (destruct v as [|v]; [try reflexivity; discriminate|]); lia).
      cbn in Ia. destruct Ia as [<-|[]]. inversion T as [n H|n H|n H|n l b H Ea Db Pb Tb]; subst; try discriminate.
      destruct l as [|x [|y [|z l]]]; try discriminate. injection Ea as _ <-.
      inversion Tb as [n H'|n H'|n H'|n l b H' Ea Db' Pb' Tb']; subst; try discriminate; contradiction.
    + intros f i a Eo Bo Ia _. assert (v = 12) as -> by (do 13 (destruct v as [|v]; [try reflexivity; discriminate|]); lia).
      destruct i as [|i]; [|discriminate]. cbn in Ia. injection Ia as <-. exact Logic.I.
  - vm_compute. reflexivity.
  - vm_compute. reflexivity.
Qed.

(** ** Texts that are read otherwise, or not at all *)

(** A text that Rust reads, but not as what it was printed from. *)
Definition rs_misread (ftext : load_src -> string) (e : ast) : Prop :=
  exists R M, rs_faithful ftext R M /\ (exists t, rs_reads (rs_text ftext no_custom borrow_first e) t) /\
    forall t, rs_reads (rs_text ftext no_custom borrow_first e) t -> rs_eval R t <> value_of M e.
Lemma rs_misread_by k ftext e env t :
  rparse k 0 (rs_lex (rs_text ftext no_custom borrow_first e)) = Some (t, []) ->
  rs_eval (rs_machine env) t <> value_of (rs_integers env ftext) e -> rs_misread ftext e.
Proof.
  intros P N. apply rs_reads_by_parse in P. exists (rs_machine env), (rs_integers env ftext).
  split; [apply rs_machine_faithful|]. split; [now exists t|]. intros t' R. now rewrite (C54_unambiguous _ _ _ R P).
Qed.

(** Twice the sign of x: [2 * (0 < x) as i64 - (x < 0) as i64]. *)
Theorem C54_signum_refuted : exists e v st tree,
  lower impl_ex 20 ids_ex 20 e empty_state = Ok (v, st) /\ visit_value names_ex (l_graph st) [] 10 v = Ok tree /\
  rs_misread no_floats tree.
Proof.
  exists (EMul [EInt 2; EFun Fsign [vx]]).
  destruct (lower impl_ex 20 ids_ex 20 (EMul [EInt 2; EFun Fsign [vx]]) empty_state) as [[v st]| | | |] eqn:H; vm_compute in H; try discriminate.
  injection H as <- <-. do 3 eexists. split; [reflexivity|]. split; [vm_compute; reflexivity|].
  eapply (rs_misread_by 60 _ _ env_ex); [vm_compute; reflexivity|]. now vm_compute.
Qed.
Print Assumptions C54_signum_refuted.

(** The negative of a truth value, all the way from the expression: [(-((v01) < (v02)) as i64) as f64] negates the truth
    value, and not the number it is cast to. *)
Theorem C54_minus_cast_refuted : exists e ss tree,
  transpile impl_ex 20 arg_ids 20 40 2 true true arg_names arg_outs [mk_out 2 "r" e NFloat] = Ok ss /\ In (SReturn tree) ss /\
  rs_misread no_floats tree.
Proof.
  exists (EMul [EInt (-1); EIver (ERel ExprModel.RLt ax ay)]).
  do 2 eexists. split; [vm_compute; reflexivity|]. split; [cbn; right; right; left; reflexivity|].
  eapply (rs_misread_by 60 _ _ (fun s => if String.eqb s "v01" then (-1)%Z else 7%Z)); [vm_compute; reflexivity|]. now vm_compute.
Qed.
Print Assumptions C54_minus_cast_refuted.

(** The sign of a conversion, [(x as f64 < 0.0f64)], is no expression: the less-than sign is taken for the start of the
    arguments of the type. *)
Theorem C54_sign_of_cast_refuted : exists e v st tree,
  lower impl_ex 20 ids_ex 20 e empty_state = Ok (v, st) /\ visit_value names_ex (l_graph st) [] 10 v = Ok tree /\
  forall t, ~ rs_reads (rs_text no_floats no_custom borrow_first tree) t.
Proof.
  exists (EFun Fsign [EFun Ffloor [vx]]).
  destruct (lower impl_ex 20 ids_ex 20 (EFun Fsign [EFun Ffloor [vx]]) empty_state) as [[v st]| | | |] eqn:H; vm_compute in H; try discriminate.
  injection H as <- <-. do 3 eexists. split; [reflexivity|]. split; [vm_compute; reflexivity|].
  intros t [z R]. apply (proj1 rparse_complete) in R. specialize (R [] Logic.I) as [k K].
  specialize (K (60 + k) ltac:(lia)). rewrite app_nil_r in K. vm_compute in K. discriminate.
Qed.
Print Assumptions C54_sign_of_cast_refuted.
