(** C55: the C++ text of the body of a function is read as the statements it was written from. *)
From Coq Require Import String List Arith ZArith Bool Lia.
From Verif Require Import Outcome IrModel CfgModel ConvModel ConvProps AstModel AstSpec AstTree AstProps StmtModel StmtProps CppSpec CppStmtSpec CppStmtModel CppBodySpec CppStmtProofs StmtText.
Import ListNotations.
Open Scope outcome_scope.
Open Scope string_scope.
Open Scope nat_scope.

(** No text is the body of a function in two ways. *)
Theorem C55_unambiguous : forall s b b', body_reads s b -> body_reads s b' -> b = b'.
Proof. exact body_unique. Qed.
Print Assumptions C55_unambiguous.
Example C55_unambiguous_ex : body_reads "{ if (a < b) { *c = -a; } const std::int64_t d = a?b:c; return d; }"
  [CsIf (CBin "<" (CId ["a"]) (CId ["b"])) [CsAssign true "c" (CUn "-" (CId ["a"]))] [];
   CsDeclare true ["std"; "int64_t"] "d" (Some (CCond (CId ["a"]) (CId ["b"]) (CId ["c"]))); CsReturn (CId ["d"])].
Proof.
  let ts := eval vm_compute in (removelast (tl (lex "{ if (a < b) { *c = -a; } const std::int64_t d = a?b:c; return d; }"))) in exists ts.
  split; [vm_compute; reflexivity|].
  assert (forall s n, is_in s keywords = false -> n <= 8 -> gram n [TWord s] (CId [s])) as Id.
  { intros s n K L. apply (AstProofs.gram_down _ 8); [lia|lia|]. apply g_id. now constructor. }
  apply (bg_cons (TWord "if" :: TPunct "(" :: [TWord "a"; TPunct "<"; TWord "b"] ++ TPunct ")" :: TPunct "{" ::
    [TPunct "*"; TWord "c"; TPunct "="; TPunct "-"; TWord "a"; TPunct ";"] ++ [TPunct "}"])).
  { apply sg_if.
    - apply (AstProofs.gram_down _ 4); [lia|lia|]. apply (g_bin 4 "<" [TWord "a"] [TWord "b"]); [now left|apply Id; [reflexivity|lia]..].
    - apply (bg_cons [TPunct "*"; TWord "c"; TPunct "="; TPunct "-"; TWord "a"; TPunct ";"] _ []); [|constructor].
      apply (sg_assign true "c" [TPunct "-"; TWord "a"]); [reflexivity|].
      apply (AstProofs.gram_down _ 7); [lia|lia|]. apply (g_un "-" [TWord "a"]); [now left|apply Id; [reflexivity|lia]]. }
  apply (bg_cons [TWord "const"; TWord "std"; TPunct "::"; TWord "int64_t"; TWord "d"; TPunct "="; TWord "a"; TPunct "?"; TWord "b"; TPunct ":"; TWord "c"; TPunct ";"]).
  { apply (sg_init true [TWord "std"; TPunct "::"; TWord "int64_t"] _ "d" [TWord "a"; TPunct "?"; TWord "b"; TPunct ":"; TWord "c"]);
      [repeat constructor|repeat constructor|reflexivity|].
    apply (g_cond [TWord "a"] [TWord "b"] [TWord "c"]); apply Id; (reflexivity || lia). }
  apply (bg_cons [TWord "return"; TWord "d"; TPunct ";"] _ []); [|constructor].
  apply (sg_return [TWord "d"]). apply Id; [reflexivity|lia].
Qed.

(** The text written for statements is the body of a function, and it is read as those statements, one by one, with the
    expressions that they have; temporaries that get a value where they are declared are constants, an optional output is
    tested before it is written through. *)
Theorem C55_body : forall span ftext type optional l, Forall (stmt_fits ftext type) l ->
  exists b, body_reads (cpp_body span ftext type optional l) b /\ Forall2 (stmt_says span ftext type optional) l b /\
    forall b', body_reads (cpp_body span ftext type optional l) b' -> b' = b.
Proof.
  intros span ftext type optional l F. destruct (body_printed span ftext type optional l F) as (b & R & S).
  exists b. split; [exact R|]. split; [exact S|]. intros b' R'. exact (body_unique _ _ _ R' R).
Qed.
Print Assumptions C55_body.

Definition lines (l : list string) : string := String.concat newline l.
Definition all_scalar (s : string) : string := if String.eqb s "v02" then "bool" else "std::double_t".
Definition optional_ex (s : string) : bool := String.eqb s "o".
Example C55_body_ex :
  (let* ss := statements_ex in Ok (cpp_body true no_floats all_scalar optional_ex ss)) = Ok (lines
    ["{";
     "  const std::double_t v01 = y;";
     "  const std::double_t v00 = x;";
     "  const std::double_t v03 = v00 * v01;";
     "  const bool v02 = v00 < v01;";
     "  std::double_t v08;";
     "  if (v03 <= v01) {";
     "    std::double_t v05;";
     "    if (v02) {";
     "      v05 = v03;";
     "    } else {";
     "      v05 = v00 + v01;";
     "    }";
     "    v08 = -v05;";
     "  } else {";
     "    v08 = v01;";
     "  }";
     "  if (static_cast<bool>(o)) {";
     "    std::double_t v10;";
     "    if (v02) {";
     "      v10 = v08;";
     "    } else {";
     "      v10 = v03;";
     "    }";
     "    *o = v10;";
     "  }";
     "  return v08;";
     "}"]) /\
  (exists ss, statements_ex = Ok ss /\ Forall (stmt_fits no_floats all_scalar) ss).
Proof.
  split; [vm_compute; reflexivity|]. eexists. split; [vm_compute; reflexivity|].
  assert (forall s, type_ok all_scalar s) as T.
  { intros s. unfold type_ok, all_scalar. destruct (String.eqb s "v02").
    - exists ["bool"]. split; [vm_compute; repeat constructor|repeat constructor].
    - exists ["std"; "double_t"]. split; [vm_compute; repeat constructor|repeat constructor]. }
  repeat match goal with
  | |- Forall _ _ => constructor
  | |- stmt_fits _ _ _ => constructor
  | |- type_ok _ _ => apply T
  | |- variable_ok _ => split; [repeat split|reflexivity]
  | |- fits _ (AVar _) => apply fit_var; repeat split
  | |- fits _ (AArg _ _) => apply fit_arg; repeat split
  | |- fits _ (ANeg _) => apply fit_neg; [|cbn; lia|reflexivity]
  | |- fits _ (AAdd _) => apply fit_add; [|cbn; lia| |repeat constructor]
  | |- fits _ (AMul _) => apply fit_mul; [|cbn; lia| |repeat constructor]
  | |- fits _ (ACompare _ _ _) => apply fit_compare; [|cbn; lia| |cbn; lia]
  end.
Qed.

Lemma plain_variable w v : plain (variable_name w v).
Proof. reflexivity. Qed.
Lemma printable_any ftext g d v : printable ftext g [] v -> printable ftext g d v.
Proof.
  intros [K1 K2 K3]. constructor; [exact K1| |].
  - intros a r E _. now apply (K2 a r).
  - intros a b r E I _. now apply (K3 a b r).
Qed.

(** The same for all statements that are written for a function: if its operations keep to the pairs of operations that
    [operand_ok] allows (see C35), and the outputs and the types of the temporaries have names. *)
Theorem C55_converted : forall span ftext type optional N outs c fuel ss,
  names_ok N -> (forall v, v < g_next (c_vals c) -> node_ok (c_vals c) v /\ printable ftext (c_vals c) [] v) ->
  (forall b v, In v (ops_of c b) -> v < g_next (c_vals c)) -> (forall k t, outs k = Some t -> variable_ok k) ->
  (forall v, type_ok type (variable_name (n_width N) v)) -> create_ast N outs c fuel = Ok ss ->
  exists b, body_reads (cpp_body span ftext type optional ss) b /\ Forall2 (stmt_says span ftext type optional) ss b /\
    forall b', body_reads (cpp_body span ftext type optional ss) b' -> b' = b.
Proof.
  intros span ftext type optional N outs c fuel ss NO NK I1 Ok_ Ty E. apply C55_body.
  assert (Forall (stmt_all (fits ftext) (fun n => variable_ok n /\ type_ok type n) variable_ok) ss) as A.
  { eapply create_all with (N := N) (outs := outs) (c := c); try exact E.
    - intros v. split; [|apply Ty]. split; [apply variable_identifier|apply plain_variable].
    - intros v. apply fit_var, variable_identifier.
    - intros d k v e L V. eapply (visit_fits ftext N (c_vals c) d); try eassumption.
      + intros w Lw. now apply NK.
      + intros w Lw. apply printable_any. now apply NK.
    - exact Ok_.
    - exact I1.
    - intros v a L Ia. exact (k_args _ _ (proj1 (NK v L)) a Ia). }
  rewrite Forall_forall in *. intros s Is. specialize (A s Is). clear -A.
  induction s using stmt_ind'; inversion A; subst; repeat match goal with H : _ /\ _ |- _ => destruct H end; constructor; auto;
    rewrite Forall_forall in *; auto.
Qed.
Print Assumptions C55_converted.
Definition converted_ex : cfg :=
  match (let* st := build conv_ex in convert 100 true (fst st)) with Ok c => c | _ => mkc (mkg 0 (fun _ => mkv OJump TVoid [] [] 0)) [] end.
Example C55_converted_ex : (let* st := build conv_ex in convert 100 true (fst st)) = Ok converted_ex /\
  names_ok stmt_names /\ (forall v, v < g_next (c_vals converted_ex) -> node_ok (c_vals converted_ex) v /\ printable no_floats (c_vals converted_ex) [] v) /\
  (forall b v, In v (ops_of converted_ex b) -> v < g_next (c_vals converted_ex)) /\
  (forall k t, stmt_outs k = Some t -> variable_ok k) /\ create_ast stmt_names stmt_outs converted_ex 40 = statements_ex.
Proof.
  assert (g_next (c_vals converted_ex) = 23) as G by (vm_compute; reflexivity).
  split; [vm_compute; reflexivity|]. split; [|split; [|split; [|split]]].
  - constructor; cbn [stmt_names n_args n_vars].
    + intros [|[|i]] s t H; cbn in H; [injection H as <- <-; repeat split..|]. destruct i; discriminate.
    + intros v. repeat split.
  - rewrite G. intros v L. do 23 (destruct v as [|v]; [split; constructor;
      [rewrite G; intros a H; vm_compute in H; intuition lia|vm_compute; auto; lia|vm_compute; auto
      |intros a r E _; vm_compute in E; first [discriminate E|injection E as <- <-; vm_compute; reflexivity]
      |intros a b r E I _; vm_compute in E; first [discriminate E|injection E as <- <-; cbn in I; intuition (subst; vm_compute; reflexivity)]]|]). lia.
  - rewrite G. intros b v H. do 12 (destruct b as [|b]; [vm_compute in H; intuition lia|]). destruct b; vm_compute in H; intuition lia.
  - intros k t. unfold stmt_outs. destruct (String.eqb k "o") eqn:E; [|discriminate]. apply String.eqb_eq in E. subst. intros _. split; [repeat split|reflexivity].
  - vm_compute. reflexivity.
Qed.
