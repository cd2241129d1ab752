(** C58: running the Python text of the body of a function returns what the function hands out. *)
From Coq Require Import String Ascii List Arith ZArith Bool Permutation Lia DecimalString.
From Verif Require Import ExprModel PassModel BuildProps LowerModel LowerProps PipeModel PipeProps.
From Verif Require Import Outcome NumProofs IrModel IrSpec IrProps CfgModel CfgSpec ConvModel ConvSpec ConvProps AstModel AstSpec AstTree AstProps StmtModel StmtSpec StmtConv StmtProps CppSpec CppStmtModel CppStmtProofs CppStmtProps StmtText RustBodySpec StmtReturn PySpec PyParse PyCodeModel PyCodeSpec PyCodeProofs PyCodeTree PyCodeProps PyStmtSpec PyStmtModel PyBodySpec PyStmtProofs PyStmtProps PyRunSpec PyRunProofs.
Import ListNotations.
Open Scope outcome_scope.
Open Scope string_scope.
Open Scope nat_scope.

(** Wherever executing the statements gives outputs, reading and running the text written for them returns the value of
    the function, if there is one, and then the outputs in the order of the signature, the last value given to each;
    all but those that are optional and not asked for. *)
Theorem C58_body : forall T w ftext indent outs ss (A : algebra) (Q : selecting A) (M : meaning (D A)) O junk temp out outer o,
  0 < indent -> Forall py_name outs -> pbody_fits T ftext outs ss ->
  py_faithful T w ftext (python_of (D A) O (m_var M)) M -> (forall k, m_var M ("compute_" ++ k) = sem A (OOutReq k) []) ->
  py_apart T temp out outer -> Forall (fun k => out k = true) outs -> Forall (tame temp out) ss ->
  function_outputs A Q M outer ss = Some o ->
  exists s, py_generate T w ftext indent outs ss = Ok s /\ (exists b, py_body_reads s b) /\
    forall b, py_body_reads s b ->
      exists l, returned A Q O (m_var M) junk b = (returned_values A o ++ l)%list /\ Forall2 (delivers A Q ss o) outs l.
Proof.
  intros T w ftext indent outs ss A Q M O junk temp out outer o In0 No F FF RQ AP Fo Ta Do.
  destruct (C57_body T w ftext indent outs ss No F) as [[Z _]|(s & b & E & R & S & U)]; [lia|].
  exists s. split; [exact E|]. split; [now exists b|]. intros b' R'. rewrite (U b' R'). eapply body_returns; eassumption.
Qed.
Print Assumptions C58_body.

(** ** A machine over whole numbers *)
Definition z_ops : py_ops Z := {|
  o_num := fun s => match NilZero.int_of_string s with Some d => Z.of_int d | None => 0%Z end;
  o_bool := fun b => if b then 1%Z else 0%Z; o_un := fun _ a => (- a)%Z;
  o_bin := fun o a b => if String.eqb o "+" then (a + b)%Z else if String.eqb o "*" then (a * b)%Z else if String.eqb o "/" then (a / b)%Z
    else if String.eqb o "<" then (if (a <? b)%Z then 1%Z else 0%Z) else if String.eqb o "<=" then (if (a <=? b)%Z then 1%Z else 0%Z)
    else (if (a =? b)%Z then 1%Z else 0%Z);
  o_call := fun _ l => match l with [c; a; b] => if Z.eqb c 0 then b else a | a :: _ => a | [] => 0%Z end;
  o_dot := fun _ _ => 0%Z; o_sub := fun a _ => a; o_key := fun _ a => a |}.
Definition z_names (x y : Z) (asked : bool) (s : string) : Z :=
  if String.eqb s "x" then x else if String.eqb s "y" then y else if asked then 1%Z else 0%Z.
Definition z_meaning (x y : Z) (asked : bool) : meaning Z := {|
  m_var := z_names x y asked; m_arg := fun s _ => z_names x y asked s;
  m_elem := fun a _ _ => a; m_field := fun _ _ => 0%Z; m_int := fun z => z;
  m_float := fun l => 0%Z;
  m_bool := fun b => if b then 1%Z else 0%Z; m_sym := fun _ => 0%Z; m_add := Z.add; m_mul := Z.mul; m_div := Z.div; m_neg := Z.opp;
  m_cmp := fun r a b => match r with RLt => if (a <? b)%Z then 1%Z else 0%Z | RLe => if (a <=? b)%Z then 1%Z else 0%Z | REq => if (a =? b)%Z then 1%Z else 0%Z end;
  m_cond := fun c a b => if Z.eqb c 0 then b else a; m_cast := fun _ a => a;
  m_std := fun _ l => o_call Z z_ops 0%Z l; m_ext := fun _ _ l => o_call Z z_ops 0%Z l |}.
Lemma z_faithful x y asked : py_faithful Numpy Float64 no_floats (python_of Z z_ops (z_names x y asked)) (z_meaning x y asked).
Proof.
  assert (forall t v, convert Numpy Float64 (python_of Z z_ops (z_names x y asked)) t v = v) as Cv by (intros t v; destruct t; reflexivity).
  constructor; try (intros; reflexivity).
  - intros z _. cbn. rewrite PlainLex.dec_string. now rewrite DecimalZ.of_to.
  - intros l s E _. unfold no_floats in E. subst s. reflexivity.
  - intros l s E _. discriminate E.
Qed.
Definition is_temp (s : string) : bool := match s with String c _ => Ascii.eqb c "v"%char | _ => false end.
Definition is_out (s : string) : bool := String.eqb s "o".
Lemma apart_ex : py_apart Numpy is_temp is_out stmt_outer.
Proof.
  constructor.
  - intros s H. unfold stmt_outer in H. apply existsb_exists in H as (k & I & E). apply String.eqb_eq in E. subst k.
    cbn in I. intuition (subst; reflexivity).
  - intros s H. unfold is_out. destruct (String.eqb_spec s "o") as [->|]; [discriminate|reflexivity].
  - split; reflexivity.
  - intros k. split; reflexivity.
Qed.
Lemma asked_ex x y asked k : z_names x y asked ("compute_" ++ k) = sem (int_algebra x y asked) (OOutReq k) [].
Proof. destruct asked; reflexivity. Qed.
Definition z_outputs (ss : list stmt) (x y : Z) (asked : bool) : option (list (option string * Z)) :=
  function_outputs (int_algebra x y asked) (int_selecting x y asked) (z_meaning x y asked) stmt_outer ss.
(** [v08] is returned, and the output [o], which is nothing in particular if it was not asked for. *)
Example C58_body_ex : exists ss, statements_ex = Ok ss /\ Forall (tame is_temp is_out) ss /\
  [z_outputs ss 2 3 true; z_outputs ss 2 3 false; z_outputs ss (-2) 3 true; z_outputs ss 3 (-2) true] =
  [Some [(Some "o", 3%Z); (None, 3%Z)]; Some [(None, 3%Z)]; Some [(Some "o", 6%Z); (None, 6%Z)]; Some [(Some "o", (-6)%Z); (None, (-1)%Z)]] /\
  (forall x y asked, exists s, py_generate Numpy Float64 no_floats 2 ["o"] ss = Ok s /\ (exists b, py_body_reads s b) /\
    forall b o, py_body_reads s b -> z_outputs ss x y asked = Some o ->
      exists v, returned (int_algebra x y asked) (int_selecting x y asked) z_ops (z_names x y asked) (fun _ => 77%Z) b =
        (returned_values (int_algebra x y asked) o ++ [v])%list /\ delivers (int_algebra x y asked) (int_selecting x y asked) ss o "o" v).
Proof.
  destruct C57_body_ex as (_ & ss & E & F). exists ss. split; [exact E|].
  assert (Forall (tame is_temp is_out) ss) as Ta.
  { pose proof E as E'. vm_compute in E'. injection E' as <-.
    repeat match goal with
    | |- Forall _ _ => constructor
    | |- tame _ _ _ => constructor
    | |- stmt_all _ _ _ _ => constructor
    | |- free_calls _ _ _ => repeat constructor
    | |- _ = true => reflexivity
    end. }
  split; [exact Ta|]. split; [pose proof E as E'; vm_compute in E'; injection E' as <-; vm_compute; reflexivity|].
  intros x y asked.
  destruct (C57_body Numpy Float64 no_floats 2 ["o"] ss) as [[Z _]|(s & b & Es & R & S & U)]; [repeat constructor|exact F|discriminate|].
  exists s. split; [exact Es|]. split; [now exists b|]. intros b' o R' Do. rewrite (U b' R').
  destruct (body_returns (int_algebra x y asked) (int_selecting x y asked) (z_meaning x y asked) z_ops (fun _ => 77%Z) Numpy Float64 no_floats
    is_temp is_out stmt_outer ["o"] ss b o) as (l & El & Fl); auto; try apply z_faithful; try apply asked_ex; try apply apart_ex.
  inversion Fl as [|? v ? ? Dv Fn]; subst. inversion Fn; subst. exists v. split; [exact El|exact Dv].
Qed.
(** The same text run as it stands. *)
Definition run_body (x y : Z) (asked : bool) : list Z :=
  returned (int_algebra x y asked) (int_selecting x y asked) z_ops (z_names x y asked) (fun _ => 77%Z)
    [PsAssign "v01" (Some (PId "y")); PsAssign "v00" (Some (PId "x")); PsAssign "v03" (Some (PBin "*" (PId "v00") (PId "v01")));
     PsAssign "v02" (Some (PBin "<" (PId "v00") (PId "v01"))); PsAssign "v08" None;
     PsIf (PBin "<=" (PId "v03") (PId "v01"))
       [PsAssign "v05" None;
        PsIf (PId "v02") [PsAssign "v05" (Some (PId "v03"))] [PsAssign "v05" (Some (PBin "+" (PId "v00") (PId "v01")))];
        PsAssign "v08" (Some (PUn "-" (PId "v05")))]
       [PsAssign "v08" (Some (PId "v01"))];
     PsIf (PId "compute_o")
       [PsAssign "v10" None;
        PsIf (PId "v02") [PsAssign "v10" (Some (PId "v08"))] [PsAssign "v10" (Some (PId "v03"))];
        PsAssign "o" (Some (PId "v10"))]
       [PsAssign "o" None];
     PsReturn (PId "v08") [PId "o"]].
Example C58_run_ex : [run_body 2 3 true; run_body 2 3 false; run_body (-2) 3 true; run_body 3 (-2) true] =
  [[3; 3]; [3; 77]; [6; 6]; [-1; -6]]%Z.
Proof. vm_compute. reflexivity. Qed.

(** For programs whose selects became branches, that is what the program with selects hands out: its value, and each of
    its outputs, which it writes once; all that are required and the optional ones the caller asked for. *)
Theorem C58_converted : forall Ty g ops fuel ct c, program Ty g 0 ops -> outputs_ok g ops -> returns_once g ops ->
  ConvModel.convert fuel ct g = Ok c ->
  forall T w ftext indent outs N outer args n ss (A : algebra) (Q : selecting A) (M : meaning (D A)) O junk temp out,
  expresses A M N c -> separate N outer c -> create_ast N args c n = Ok ss ->
  0 < indent -> Forall py_name outs -> pbody_fits T ftext outs ss ->
  py_faithful T w ftext (python_of (D A) O (m_var M)) M -> (forall k, m_var M ("compute_" ++ k) = sem A (OOutReq k) []) ->
  py_apart T temp out outer -> Forall (fun k => out k = true) outs -> Forall (tame temp out) ss ->
  exists e0 o s, exec A g ops (no_values A) = Some e0 /\ Permutation o (filter (wanted Q) (outputs A g e0 ops)) /\
    py_generate T w ftext indent outs ss = Ok s /\ (exists b, py_body_reads s b) /\
    forall b, py_body_reads s b ->
      exists l, returned A Q O (m_var M) junk b = (returned_values A (map (as_output A) o) ++ l)%list /\
        Forall2 (delivers A Q ss (map (as_output A) o)) outs l.
Proof.
  intros Ty g ops fuel ct c P Ho R1 Ec T w ftext indent outs N outer args n ss A Q M O junk temp out Ex Sp Es In0 No F FF RQ AP Fo Ta.
  destruct (C49_converted Ty g ops fuel ct c P Ho R1 Ec A Q M N args outer n ss Ex Sp Es) as (e0 & o & X1 & X2 & X3).
  destruct (C58_body T w ftext indent outs ss A Q M O junk temp out outer (map (as_output A) o)) as (s & E & B & H); auto.
  exists e0, o, s. auto.
Qed.
Print Assumptions C58_converted.
(** The example above is such a program, for all inputs. *)
Example C58_converted_ex : forall x y asked, program ex_typing graph_ex 0 (seq 0 12) /\ outputs_ok graph_ex (seq 0 12) /\
  returns_once graph_ex (seq 0 12) /\ ConvModel.convert 100 true graph_ex = Ok cfg_ex /\ separate stmt_names stmt_outer cfg_ex /\
  expresses (int_algebra x y asked) (z_meaning x y asked) stmt_names cfg_ex /\ create_ast stmt_names stmt_outs cfg_ex 40 = statements_ex.
Proof.
  intros x y asked. destruct C49_converted_ex as (P & O & R & C & S & _). repeat (split; [assumption|]). split; [|vm_compute; reflexivity].
  unfold expresses. match goal with |- forall t, @?P t => apply (below_ex P 12) end; [each; intros v l Hv; vm_compute in Hv; repeat match type of Hv with _ \/ _ => destruct Hv as [<-|Hv] | False => destruct Hv end|intros [|t] v l Hv; vm_compute in Hv; contradiction].
  all: match goal with |- context [control ?o] => let o' := eval vm_compute in o in change o with o' end.
  all: match goal with |- context [length _ = ?n] => let n' := eval vm_compute in n in change n with n' end.
  all: intros Cn El; try discriminate Cn; destruct l as [|a [|b [|d l]]]; try discriminate El; clear Cn El.
  all: match goal with |- context [ty_of ?c ?v] => let t := eval vm_compute in (ty_of c v) in change (ty_of c v) with t end.
  all: cbv -[Z.add Z.mul Z.opp Z.ltb Z.leb Z.eqb]; f_equal; try reflexivity; ring.
Qed.
