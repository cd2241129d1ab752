(** C57: the Python text of the body of a function is read as the statements it was written from. *)
From Coq Require Import String List Arith ZArith Bool Lia.
From Verif Require Import ExprModel PassModel BuildProps LowerModel LowerProps PipeModel PipeProps.
From Verif Require Import Outcome NumProofs IrModel CfgModel ConvModel ConvProps AstModel AstSpec AstTree AstProps StmtModel StmtSpec StmtConv StmtProps CppSpec CppStmtModel CppStmtProofs CppStmtProps StmtText RustBodySpec StmtReturn PySpec PyParse PyCodeModel PyCodeSpec PyCodeProofs PyCodeTree PyStmtSpec PyStmtModel PyBodySpec PyStmtProofs.
Import ListNotations.
Open Scope outcome_scope.
Open Scope string_scope.
Open Scope nat_scope.

(** No text is the body of a function in two ways. *)
Theorem C57_unambiguous : forall s b b', py_body_reads s b -> py_body_reads s b' -> b = b'.
Proof. exact py_body_unique. Qed.
Print Assumptions C57_unambiguous.
Lemma py_by_parse k ts t : pparse k 0 ts = Some (t, []) -> pgram 0 ts t.
Proof. intros H. apply (proj1 (pparse_sound k)) in H; [|lia]. destruct H as (pre & E & G). rewrite app_nil_r in E. now subst. Qed.
(** Branches of different depths, blank lines and a tuple over more than one line. *)
Example C57_unambiguous_ex : py_body_reads (lines
    ["";
     "  x = None";
     "  if a < b:";
     "     x = -a";
     "     if c:";
     "      y = 1";
     "";
     "  else:";
     "    x = (a +";
     "b)";
     "  return (x,";
     "y)"])
  [PsAssign "x" None;
   PsIf (PBin "<" (PId "a") (PId "b")) [PsAssign "x" (Some (PUn "-" (PId "a"))); PsIf (PId "c") [PsAssign "y" (Some (PNum "1"))] []]
     [PsAssign "x" (Some (PBin "+" (PId "a") (PId "b")))];
   PsReturn (PId "x") [PId "y"]].
Proof.
  split; [discriminate|]. exists 2. split; [lia|].
  match goal with |- pblock _ ?x _ => let y := eval vm_compute in x in replace x with y by (vm_compute; reflexivity) end.
  apply pb_simple; [now apply ps_none|].
  match goal with |- pblock _ ?x _ =>
    change x with ((2, TWord "if" :: [TWord "a"; TPunct "<"; TWord "b"] ++ [TPunct ":"]) ::
      [(5, [TWord "x"; TPunct "="; TPunct "-"; TWord "a"]); (5, TWord "if" :: [TWord "c"] ++ [TPunct ":"]); (6, [TWord "y"; TPunct "="; TNum "1"])] ++
      (2, [TWord "else"; TPunct ":"]) :: [(4, [TWord "x"; TPunct "="; TPunct "("; TWord "a"; TPunct "+"; TWord "b"; TPunct ")"])] ++
      [(2, [TWord "return"; TPunct "("; TWord "x"; TPunct ","; TWord "y"; TPunct ")"])])%list end.
  apply (pb_else 2 5 4); [now apply (py_by_parse 40)|lia|discriminate| |lia|discriminate| |].
  - apply pb_simple; [apply ps_assign; [reflexivity|now apply (py_by_parse 40)]|].
    apply (pb_if 5 6 [TWord "c"] _ [(6, [TWord "y"; TPunct "="; TNum "1"])] _ [] []);
      [now apply (py_by_parse 40)|lia|discriminate| |constructor].
    apply pb_simple; [apply ps_assign; [reflexivity|now apply (py_by_parse 40)]|constructor].
  - apply pb_simple; [apply ps_assign; [reflexivity|now apply (py_by_parse 40)]|constructor].
  - apply pb_simple; [|constructor]. apply (ps_tuple ([TWord "x"] ++ TPunct "," :: [TWord "y"])).
    apply pa_more; [now apply (py_by_parse 40)|]. apply pa_one. now apply (py_by_parse 40).
Qed.

(** The text written for statements is the body of a function, and it is read as those statements, one by one, with the
    expressions that they have; what is returned at the end is the value of a last one that returns, if there is one,
    and the outputs.  The generator refuses to write without indentation. *)
Theorem C57_body : forall T w ftext indent outs l, Forall py_name outs -> pbody_fits T ftext outs l ->
  (indent = 0 /\ py_generate T w ftext indent outs l = Throws) \/
  exists s b, py_generate T w ftext indent outs l = Ok s /\ py_body_reads s b /\ pbody_says T w ftext outs l b /\
    forall b', py_body_reads s b' -> b' = b.
Proof.
  intros T w ftext indent outs l No F. unfold py_generate. destruct (Nat.ltb_spec indent 1) as [L|In0]; [left; split; [lia|reflexivity]|right].
  destruct (body_printed T w ftext indent In0 outs l No F) as (s & b & E & R & S).
  exists s, b. split; [exact E|]. split; [exact R|]. split; [exact S|]. intros b' R'. exact (py_body_unique _ _ _ R' R).
Qed.
Print Assumptions C57_body.
Example C57_body_ex :
  (let* ss := statements_ex in py_generate Numpy Float64 no_floats 2 ["o"] ss) = Ok (lines
    ["  v01 = y";
     "  v00 = x";
     "  v03 = v00 * v01";
     "  v02 = v00 < v01";
     "  v08 = None";
     "  if v03 <= v01:";
     "    v05 = None";
     "    if v02:";
     "      v05 = v03";
     "    else:";
     "      v05 = v00 + v01";
     "    v08 = -v05";
     "  else:";
     "    v08 = v01";
     "  if compute_o:";
     "    v10 = None";
     "    if v02:";
     "      v10 = v08";
     "    else:";
     "      v10 = v03";
     "    o = v10";
     "  else:";
     "    o = None";
     "  return (";
     "    v08,";
     "    o";
     "  )"]) /\
  (exists ss, statements_ex = Ok ss /\ pbody_fits Numpy no_floats ["o"] ss).
Proof.
  split; [vm_compute; reflexivity|].
  let ss := eval vm_compute in statements_ex in match ss with Ok ?l => exists l end. split; [vm_compute; reflexivity|].
  match goal with |- pbody_fits _ _ _ ?l => let i := eval cbv in (removelast l) in change l with (i ++ [SReturn (AVar "v08")])%list end.
  apply pbf_value; [|apply yf_var; repeat split].
  repeat match goal with
  | |- Forall _ _ => constructor
  | |- _ <> [] => discriminate
  | |- pstmt_fits _ _ _ => constructor
  | |- py_name _ => repeat split
  | |- py_fits _ _ (AVar _) => apply yf_var
  | |- py_fits _ _ (AArg _ _) => apply yf_arg
  | |- py_fits _ _ (AParen _) => apply yf_paren
  | |- py_fits _ _ (ANeg _) => apply yf_neg; [|cbn; lia]
  | |- py_fits _ _ (AAdd _) => apply yf_add; [|cbn; lia| |repeat constructor]
  | |- py_fits _ _ (AMul _) => apply yf_mul; [|cbn; lia| |repeat constructor]
  | |- py_fits _ _ (ACompare _ _ _) => apply yf_compare; [|cbn; lia| |cbn; lia]
  end.
Qed.

Lemma py_stmts_two T w ftext indent l : Forall (fun s => py_stmt T w ftext indent s = Throws \/ exists t, py_stmt T w ftext indent s = Ok t /\ no_return s) l ->
  py_stmts T w ftext indent l = Throws \/ exists t, py_stmts T w ftext indent l = Ok t /\ Forall no_return l.
Proof.
  induction 1 as [|s l [H|(t & H & N)] F IH]; cbn [py_stmts].
  - right. exists []. auto.
  - left. now rewrite H.
  - rewrite H. cbn [bind]. destruct IH as [E|(r & E & R)]; rewrite E; cbn [bind]; [now left|right]. eexists. split; [reflexivity|now constructor].
Qed.
Lemma py_stmt_two T w ftext indent s : py_stmt T w ftext indent s = Throws \/ exists t, py_stmt T w ftext indent s = Ok t /\ no_return s.
Proof.
  induction s as [n rhs|n e|k e|e|c l r IHl IHr|k l IHl] using stmt_ind'.
  - destruct rhs; right; eexists; (split; [reflexivity|constructor]).
  - right; eexists; (split; [reflexivity|constructor]).
  - right; eexists; (split; [reflexivity|constructor]).
  - now left.
  - cbn [py_stmt]. change ((fix all (l : list stmt) : outcome (list string) := match l with [] => Ok [] | x :: t => let* a := py_stmt T w ftext indent x in let* r := all t in Ok (a :: r) end)) with (py_stmts T w ftext indent).
    destruct (py_stmts_two _ _ _ _ _ IHl) as [E|(a & E & R)]; rewrite E; cbn [bind]; [now left|].
    destruct (py_stmts_two _ _ _ _ _ IHr) as [E2|(b & E2 & R2)]; rewrite E2; cbn [bind]; [now left|right]. eexists. split; [reflexivity|now constructor].
  - cbn [py_stmt]. change ((fix all (l : list stmt) : outcome (list string) := match l with [] => Ok [] | x :: t => let* a := py_stmt T w ftext indent x in let* r := all t in Ok (a :: r) end)) with (py_stmts T w ftext indent).
    destruct (py_stmts_two _ _ _ _ _ IHl) as [E|(a & E & R)]; rewrite E; cbn [bind]; [now left|right]. eexists. split; [reflexivity|now constructor].
Qed.
Lemma split_return_app l s : l <> [] -> split_return (s :: l) = (s :: fst (split_return l), snd (split_return l)).
Proof. destruct l as [|x l]; [congruence|]. intros _. now destruct s. Qed.
Lemma split_return_keeps x s y : (y <> [] \/ forall e, s <> SReturn e) -> In s (fst (split_return (x ++ s :: y)%list)).
Proof.
  intros H. induction x as [|a x IH]; cbn [app].
  - destruct y as [|b y].
    + destruct H as [H|H]; [congruence|]. destruct s; try now left. exfalso. eapply H. reflexivity.
    + rewrite split_return_app by discriminate. now left.
  - rewrite split_return_app by now destruct x. right. exact IH.
Qed.
(** A return in a branch, or before other statements, is refused, and so is a function without statements. *)
Theorem C57_refused : forall T w ftext indent outs x s y, ~ no_return s -> (y <> [] \/ forall e, s <> SReturn e) ->
  py_generate T w ftext indent outs (x ++ s :: y)%list = Throws /\ py_generate T w ftext indent outs [] = Throws.
Proof.
  intros T w ftext indent outs x s y N H. split; [|unfold py_generate; now destruct (indent <? 1)]. unfold py_generate. destruct (indent <? 1); [reflexivity|]. unfold py_body.
  pose proof (split_return_keeps x s y H) as I. destruct (x ++ s :: y)%list as [|z l] eqn:E; [reflexivity|]. rewrite <- E in *.
  destruct (split_return (x ++ s :: y)%list) as [body v]. cbn [fst] in I.
  destruct (py_stmts_two T w ftext indent body) as [R|(t & R & F)].
  - apply Forall_forall. intros q _. apply py_stmt_two.
  - now rewrite R.
  - rewrite Forall_forall in F. now apply F in I.
Qed.
Print Assumptions C57_refused.
Example C57_refused_ex : ~ no_return (SBranch (AVar "c") [SReturn (AVar "x")] []) /\
  py_generate Numpy Float64 no_floats 2 [] [SBranch (AVar "c") [SReturn (AVar "x")] []; SReturn (AVar "y")] = Throws /\
  py_generate Numpy Float64 no_floats 2 [] [SReturn (AVar "y")] = Ok (lines ["  "; "  return y"]).
Proof.
  split; [|split; reflexivity]. intros H. inversion H as [| | |? ? ? F|]; subst. inversion F as [|? ? N]; subst. inversion N.
Qed.

Lemma py_printable_any ftext g d v : py_printable ftext g [] v -> py_printable ftext g d v.
Proof. intros [K1 K2]. constructor; [exact K1|]. intros a I _. now apply K2. Qed.
(** The same for all statements that are written for a function whose operations keep to the pairs that [py_operand_ok]
    allows (see C53), if outputs have names, and there are statements in all of its branches. *)
Theorem C57_converted : forall T w ftext indent names N outs c b bs fuel ss,
  0 < indent -> Forall py_name names -> py_names_ok N -> branching c b bs -> first_block c = Ok b ->
  (forall v, v < g_next (c_vals c) -> node_ok (c_vals c) v /\ py_printable ftext (c_vals c) [] v) ->
  (forall t v, In v (ops_of c t) -> v < g_next (c_vals c)) -> (forall k t, outs k = Some t -> py_name k) ->
  create_ast N outs c fuel = Ok ss -> ss <> [] -> Forall no_empty ss ->
  exists s l, py_generate T w ftext indent names ss = Ok s /\ py_body_reads s l /\ pbody_says T w ftext names ss l /\
    forall l', py_body_reads s l' -> l' = l.
Proof.
  intros T w ftext indent names N outs c b bs fuel ss In0 Nm NO B Fb NK I1 Ok_ E Ne Em.
  cut (pbody_fits T ftext names ss); [intros F; destruct (C57_body T w ftext indent names ss Nm F) as [[Z _]|H]; [lia|exact H]|].
  assert (Forall (stmt_all (py_fits T ftext) py_name py_name) ss) as A.
  { eapply create_all with (N := N) (outs := outs) (c := c); try exact E.
    - intros v. apply variable_py_name.
    - intros v. apply yf_var, variable_py_name.
    - intros d k v e L V. eapply (visit_fit T ftext N (c_vals c) d); try eassumption.
      + intros u Lu. now apply NK.
      + intros u Lu. apply py_printable_any. now apply NK.
    - exact Ok_.
    - exact I1.
    - intros v a L Ia. exact (k_args _ _ (proj1 (NK v L)) a Ia). }
  assert (forall s, no_return s -> no_empty s -> stmt_all (py_fits T ftext) py_name py_name s -> pstmt_fits T ftext s) as Fit.
  { clear. intros s NR NE A. induction s using stmt_ind'; inversion A; subst; inversion NR; subst; inversion NE; subst;
      constructor; auto; rewrite Forall_forall in *; auto. }
  destruct (create_returns N outs c b bs B fuel ss Fb E) as (l & Fl & [->|(x & ->)]).
  - apply pbf_none; [exact Ne|]. rewrite Forall_forall in *. auto.
  - apply Forall_app in A as [A1 A2]. apply Forall_app in Em as [Em _]. inversion A2 as [|s l0 A3 _]; subst. inversion A3; subst.
    apply pbf_value; [|assumption]. rewrite Forall_forall in *. auto.
Qed.
Print Assumptions C57_converted.
Example C57_converted_ex : py_names_ok stmt_names /\ (exists b bs, first_block converted_ex = Ok b /\ branching converted_ex b bs) /\
  (forall v, v < g_next (c_vals converted_ex) -> node_ok (c_vals converted_ex) v /\ py_printable no_floats (c_vals converted_ex) [] v) /\
  (forall b v, In v (ops_of converted_ex b) -> v < g_next (c_vals converted_ex)) /\
  (forall k t, stmt_outs k = Some t -> py_name k) /\
  exists ss, create_ast stmt_names stmt_outs converted_ex 40 = Ok ss /\ ss <> [] /\ Forall no_empty ss.
Proof.
  destruct C55_converted_ex as (Ec & _ & NK & I1 & _ & Cr).
  assert (g_next (c_vals converted_ex) = 23) as G by (vm_compute; reflexivity).
  split; [|split; [|split; [|split; [|split]]]]; [| | |exact I1| |].
  - constructor; cbn [stmt_names n_args n_vars].
    + intros [|[|i]] s t H; cbn in H; [injection H as <- <-; repeat split..|]. destruct i; discriminate.
    + intros v. repeat split.
  - destruct C49_converted_ex as (P & O & R & C & _).
    assert (ConvModel.convert 100 true graph_ex = Ok converted_ex) as C' by (vm_compute; reflexivity).
    exact (converted_branching _ _ _ _ _ _ P O R C').
  - intros v L. split; [exact (proj1 (NK v L))|]. rewrite G in L. clear NK I1 Cr Ec.
    do 23 (destruct v as [|v]; [constructor; [vm_compute; auto|intros a I _; vm_compute in I; intuition (subst; vm_compute; reflexivity)]|]). lia.
  - intros k t. unfold stmt_outs. destruct (String.eqb k "o") eqn:E; [|discriminate]. apply String.eqb_eq in E. subst. intros _. repeat split.
  - let ss := eval vm_compute in (create_ast stmt_names stmt_outs converted_ex 40) in match ss with Ok ?l => exists l end.
    split; [vm_compute; reflexivity|]. split; [discriminate|].
    repeat match goal with |- Forall _ _ => constructor | |- no_empty _ => constructor | |- _ <> [] => discriminate end.
Qed.

(** A branch without statements is written without any, and then the text is no body; so branches must not be empty. *)
Example C57_body_empty_ex : exists s, py_generate Numpy Float64 no_floats 2 [] [SBranch (AVar "c") [] []] = Ok s /\ forall b, ~ py_body_reads s b.
Proof.
  eexists. split; [vm_compute; reflexivity|]. intros b (_ & k & K & B).
  match type of B with pblock _ ?x _ => let y := eval vm_compute in x in replace x with y in B by (vm_compute; reflexivity) end.
  inversion B as [|? ? ? ? ? S ? |? ? ? ? li ? ls ? ? ? N ? ? E1 E2|? ? ? ? ? li ? ? ? ls ? ? ? N ? ? ? ? ? E1 E2]; subst.
  - destruct (psimple_first _ _ S) as (w & t & E & Ne & _). congruence.
  - destruct li; [now apply N|discriminate].
  - destruct li; discriminate.
Qed.
