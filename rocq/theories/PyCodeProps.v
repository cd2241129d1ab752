(** C53: the Python text of an expression is read as the expression it was printed from. *)
From Coq Require Import String Ascii List Arith ZArith Bool Lia DecimalString.
From Verif Require Import CppSpec CppParse PySpec PyParse PlainSpec Outcome ExprModel BuildProps IrModel LowerModel LowerProps AstModel AstSpec
  AstProofs AstTree AstProps PyCodeModel PyCodeSpec PyCodeProofs PyCodeTree.
Import IrModel AstModel.
Import ListNotations.
Open Scope string_scope.
Open Scope nat_scope.

(** ** A machine for the examples: whole numbers, and the modules with a few of their members. *)
Inductive pcell := PZ (z : Z) | PMod (m : string) | PMem (m f : string) | PKeyed (s : string) (v : pcell) | PBad.
Definition pnum_cell (s : string) : pcell :=
  match NilZero.int_of_string s with Some d => PZ (Z.of_int d) | None => PBad end.
Definition pon2 (f : Z -> Z -> Z) (a b : pcell) : pcell := match a, b with PZ x, PZ y => PZ (f x y) | _, _ => PBad end.
Definition pneg_cell (a : pcell) : pcell := match a with PZ z => PZ (- z) | _ => PBad end.
Definition pbin_cell (o : string) : pcell -> pcell -> pcell :=
  if String.eqb o "+" then pon2 Z.add else if String.eqb o "*" then pon2 Z.mul else if String.eqb o "/" then pon2 Z.quot
  else if String.eqb o "<" then pon2 (fun x y => b2z (x <? y)%Z) else if String.eqb o "<=" then pon2 (fun x y => b2z (x <=? y)%Z)
  else if String.eqb o "==" then pon2 (fun x y => b2z (x =? y)%Z) else fun _ _ => PBad.
Definition pcond_cell (c a b : pcell) : pcell := match c with PZ z => if (z =? 0)%Z then b else a | _ => PBad end.
Definition pcast_cell (t : numeric) (a : pcell) : pcell :=
  match t, a with NBool, PZ z => PZ (b2z (negb (z =? 0)%Z)) | NBool, _ => PBad | _, v => v end.
Definition pstd_cell (f : std_fn) (l : list pcell) : pcell :=
  match f, l with
  | F_abs, [PZ z] => PZ (Z.abs z)
  | F_signum, [PZ z] => PZ (Z.sgn z)
  | F_powi, [PZ a; PZ b] | F_powf, [PZ a; PZ b] => PZ (a ^ b)
  | _, _ => PBad
  end.
Definition pid_cell (env : string -> Z) (s : string) : pcell := if is_in s ["np"; "th"; "jnp"] then PMod s else PZ (env s).
Definition pdot_cell (a : pcell) (f : string) : pcell :=
  match a with PMod m => if String.eqb f "pi" then PZ 3 else if String.eqb f "e" then PZ 2 else PMem m f | _ => PBad end.
Definition psub_cell (a : pcell) (l : list pcell) : pcell :=
  match a, l with PZ a, [PZ r; PZ c] => PZ (a + 10 * r + c) | _, _ => PBad end.
Definition ptype_cell (f : string) (v : pcell) : pcell := if String.eqb f "bool" then pcast_cell NBool v else v.
(** torch has no conversions by calling a type. *)
Definition pcall_cell (f : pcell) (l : list pcell) : pcell :=
  match f, l with
  | PMem m "where", [c; a; b] => pcond_cell c a b
  | PMem m "abs", l => pstd_cell F_abs l
  | PMem m "sign", l => pstd_cell F_signum l
  | PMem m "power", l => pstd_cell F_powi l
  | PMem "th" "asarray", [v; PKeyed "dtype" (PMem "th" f)] => ptype_cell f v
  | PMem m "bool", [v] | PMem m "int32", [v] | PMem m "float32", [v] | PMem m "float64", [v] =>
      if String.eqb m "th" then PBad else match f with PMem _ f => ptype_cell f v | _ => PBad end
  | PZ a, [PZ b] => PZ (a + 100 * b)
  | _, _ => PBad
  end.
Definition py_machine (env : string -> Z) : python :=
  Build_python pcell (pid_cell env) pnum_cell (fun b => PZ (b2z b))
    (fun o a => if String.eqb o "-" then pneg_cell a else PBad) pbin_cell pcall_cell pdot_cell psub_cell PKeyed.
Definition py_integers (env : string -> Z) (ftext : load_src -> string) : meaning pcell :=
  Build_meaning pcell (pid_cell env) (fun s _ => pid_cell env s) (fun v r c => psub_cell v [PZ (Z.of_nat r); PZ (Z.of_nat c)])
    pdot_cell PZ
    (fun l => match ftext l with
              | String c s => if Ascii.eqb c "-" then pneg_cell (pnum_cell s) else pnum_cell (String c s)
              | s => pnum_cell s
              end)
    (fun b => PZ (b2z b)) (fun c => match c with SEuler => PZ 2 | SPi => PZ 3 end)
    (pon2 Z.add) (pon2 Z.mul) (pon2 Z.quot) pneg_cell
    (fun r => match r with
              | RLt => pon2 (fun x y => b2z (x <? y)%Z) | RLe => pon2 (fun x y => b2z (x <=? y)%Z)
              | REq => pon2 (fun x y => b2z (x =? y)%Z)
              end)
    pcond_cell pcast_cell pstd_cell (fun f _ l => pcall_cell (pid_cell env f) l).

Lemma pnum_dec z : pnum_cell (dec z) = PZ z.
Proof. unfold pnum_cell. rewrite PlainLex.dec_string. now rewrite DecimalZ.of_to. Qed.
Lemma py_machine_faithful T w env ftext : py_faithful T w ftext (py_machine env) (py_integers env ftext).
Proof.
  assert (forall t v, convert T w (py_machine env) t v = pcast_cell t v) as Cast by (intros t v; destruct T, w, t; reflexivity).
  assert (forall v, constant T w (py_machine env) v = v) as Const.
  { intros v. unfold constant. destruct T; try reflexivity; apply Cast. }
  constructor; try (intros; reflexivity).
  - intros v r c. cbn. unfold dec_nat. now rewrite !pnum_dec.
  - intros z _. cbn. apply pnum_dec.
  - intros l s <- K. rewrite Const. cbn. destruct (ftext l) as [|c t]; [reflexivity|].
    destruct (Ascii.eqb_spec c "-") as [Q|]; [|reflexivity]. subst c. cbn in K. now destruct K.
  - intros l s E _. rewrite Const. cbn. now rewrite E.
  - intros c. rewrite Const. destruct T, c; reflexivity.
  - intros c a b. destruct T; reflexivity.
  - exact Cast.
  - intros f l. destruct T, f, l as [|a [|b l]]; reflexivity.
Qed.

(** ** The texts that are read as they are meant *)

(** No text has two readings, calls with a keyword included. *)
Example C53_keyword_ex :
  py_reads "th.asarray(-x, dtype=th.float64)[0, 1]"
    (PSub (PCall (PDot (PId "th") "asarray") [PUn "-" (PId "x"); PKey "dtype" (PDot (PId "th") "float64")]) [PNum "0"; PNum "1"]) /\
  pparse 40 0 (py_lex "m[dtype=0]") = None /\ pparse 40 0 (py_lex "f(a=1, b)") = None.
Proof. split; [apply (py_reads_by_parse 40); vm_compute; reflexivity|split; vm_compute; reflexivity]. Qed.

(** The text of a tree whose operands hold together tightly enough is an expression; it is read in one way, and has the
    value that the tree stands for, whatever library and width are chosen. *)
Theorem C53_text : forall T w ftext e, py_fits T ftext e ->
  exists t, py_reads (py_text T w ftext e) t /\ (forall t', py_reads (py_text T w ftext e) t' -> t' = t) /\
    forall P M, py_faithful T w ftext P M -> py_eval P t = value_of M e.
Proof.
  intros T w ftext e F. destruct (py_text_reads T w ftext e F) as (t & R & Me).
  exists t. split; [exact R|]. split; [|exact Me]. intros t' R'. exact (py_unambiguous _ _ _ R' R).
Qed.
Print Assumptions C53_text.
(** Twice a sign, a selection inside a product and a minus behind a minus: the trees that C++ misreads. *)
Definition minus_half : load_src -> string := fun _ => "-7".
Definition py_ex : ast :=
  AAdd [AMul [AInt 2; AStd F_signum [AVar "x"]]; ANeg (ANeg (AVar "y"));
        AMul [AFloat (LInt 0); ATernary (ACompare RLt (AVar "x") (AVar "y")) (AElem (AArg "m" true) 0 2) (ACast NFloat (AInt (-3)))]].
Example C53_text_ex :
  py_fits Torch minus_half py_ex /\
  py_text Numpy Float32 minus_half py_ex =
    "2 * np.sign(x) + --y + np.float32(-7) * np.where(x < y, m[0, 2], np.float32(-3))" /\
  py_text Torch Float64 minus_half py_ex =
    "2 * th.sign(x) + --y + -7 * th.where(x < y, m[0, 2], th.asarray(-3, dtype=th.float64))" /\
  value_of (py_integers env_ex minus_half) py_ex = PZ (-62).
Proof.
  split; [|repeat split; vm_compute; reflexivity].
  apply yf_add; cbn; try lia.
  - apply yf_mul; cbn; try lia; [apply yf_int| |repeat constructor]. constructor; [|constructor]. apply yf_std. repeat constructor.
  - constructor; [apply yf_neg; [apply yf_neg; [now apply yf_var|cbn; lia]|cbn; lia]|]. constructor; [|constructor].
    apply yf_mul; cbn; try lia.
    + now apply (yf_float _ _ _ "7"); [|right].
    + constructor; [|constructor]. apply yf_ternary.
      * apply yf_compare; cbn; try lia; now apply yf_var.
      * apply yf_elem; [now apply yf_arg|reflexivity].
      * apply yf_cast, yf_int.
    + repeat constructor.
  - repeat constructor.
Qed.

(** The same for a value of a block: comparisons are not compared, and copies have a variable of their own if they are
    operands of an operator; nothing else is asked of the operations. *)
Theorem C53_value : forall T w ftext N g d k n e,
  py_names_ok N -> (forall v, v < g_next g -> node_ok g v) -> (forall v, v < g_next g -> py_printable ftext g d v) ->
  n < g_next g -> visit_value N g d k n = Ok e ->
  exists t, py_reads (py_text T w ftext e) t /\ (forall t', py_reads (py_text T w ftext e) t' -> t' = t) /\
    forall P M E, py_faithful T w ftext P M -> valuation M N g d E ->
      operation_value M N (op_of g n) (ty_of g n) (map E (args g n)) = Some (py_eval P t).
Proof.
  intros T w ftext N g d k n e NO NK PR L H.
  destruct (C53_text T w ftext e (visit_fit T ftext N g d NK NO PR k n e L H)) as (t & R & U & V).
  exists t. split; [exact R|]. split; [exact U|]. intros P M E FF VE. rewrite (V P M FF).
  exact (visit_means N g d NK M E VE k n e L H).
Qed.
Print Assumptions C53_value.
(** The block of C35 with a sign and a selection. *)
Definition py_block_ex : graph := graph_of
  [(OLoad (LVar 0), num NFloat, []); (OMul, num NFloat, [0; 0]); (OLoad (LArg 0 5), num NFloat, []);
   (OLoad (LInt (-3)), num NInt, []); (OCast NFloat, num NFloat, [3]); (OCallStd F_signum, num NFloat, [1]);
   (OAdd, num NFloat, [1; 2; 4; 5]); (OCompare RLe, num NBool, [6; 1]); (OCond, num NFloat, [7; 6; 5]);
   (ONeg, num NFloat, [8]); (ONeg, num NFloat, [9]); (ODiv, num NFloat, [10; 6])].
Example C53_value_ex :
  py_names_ok names_ex /\ (forall v, v < g_next py_block_ex -> node_ok py_block_ex v) /\
  (forall v, v < g_next py_block_ex -> py_printable no_floats py_block_ex [1] v) /\
  (let* e := visit_value names_ex py_block_ex [1] 20 11 in Ok (py_text Jax Float64 no_floats e))%outcome =
    Ok "--jnp.where((v01 + m[1, 2] + jnp.float64(-3) + jnp.sign(v01) <= v01), (v01 + m[1, 2] + jnp.float64(-3) + jnp.sign(v01)), jnp.sign(v01)) / (v01 + m[1, 2] + jnp.float64(-3) + jnp.sign(v01))".
Proof.
  split; [|split; [|split]].
  - constructor; cbn [names_ex n_args n_vars].
    + intros [|i] s t H; [|discriminate]. injection H as <- <-. repeat split.
    + intros [|v]; repeat split.
  - intros v L. cbn in L. constructor.
    + do 12 (destruct v as [|v]; [cbn; intuition (subst; lia)|]). lia.
    + do 12 (destruct v as [|v]; [cbn; auto; lia|]). lia.
  - intros v L. cbn in L. constructor.
    + do 12 (destruct v as [|v]; [cbn; exact Logic.I|]). lia.
    + do 12 (destruct v as [|v]; [cbn; intros a H; intuition (subst; reflexivity)|]). lia.
  - vm_compute. reflexivity.
Qed.

(** ** Comparisons of comparisons *)

(** There are operations whose text is no expression of the grammar: Python makes one chain of [x < y < x]. *)
Theorem C53_comparisons_refuted : exists g n e,
  (forall v, v < g_next g -> node_ok g v) /\ n < g_next g /\ visit_value names_ex g [] 10 n = Ok e /\
  forall T w t, ~ py_reads (py_text T w no_floats e) t.
Proof.
  exists (graph_of [(OLoad (LVar 0), num NFloat, []); (OLoad (LVar 1), num NFloat, []); (OCompare RLt, num NBool, [0; 1]);
                    (OCompare RLt, num NBool, [2; 0])]), 3.
  eexists. split; [|split; [cbn; lia|split; [reflexivity|]]].
  - intros v L. cbn in L. constructor.
    + do 4 (destruct v as [|v]; [cbn; intuition (subst; lia)|]). lia.
    + do 4 (destruct v as [|v]; [cbn; auto; lia|]). lia.
  - intros T w t R. apply (proj1 pparse_complete) in R. specialize (R [] Logic.I) as [k K].
    specialize (K (20 + k) ltac:(lia)). rewrite app_nil_r in K. vm_compute in K. discriminate.
Qed.
Print Assumptions C53_comparisons_refuted.
