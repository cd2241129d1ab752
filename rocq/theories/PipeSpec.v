(** What is expected of a program that is to be simplified, given branches and written as statements. *)
From Coq Require Import String List Arith ZArith Reals Bool.
From Verif Require Import Outcome IrModel IrSpec CfgModel ConvSpec AstModel AstSpec StmtModel StmtSpec ExprModel BuildModel ExprSpec LowerModel LowerSpec.
Import ListNotations.
Open Scope nat_scope.

(** A list of operations in one block that hands out values, and no operation reads what has no value. *)
Record source (T : typing) (g : graph) (ops : list name) : Prop := {
  so_program : program T g 0 ops;
  so_outputs : outputs_ok g ops;
  so_save : forall u k l, ft T (OSave u k) l = TVoid;
  so_operand : forall v a, In v ops -> In a (args g v) -> ty_of g a <> TVoid
}.

(** The outputs of a function description: those given back by arguments have an argument, and at most one value is
    returned. *)
Definition outputs_fit (args : string -> option arg_type) (outs : list output) : Prop :=
  (forall o, In o outs -> o_usage o < 3 /\ (o_usage o <> 2 -> args (o_key o) = Some ArgScalar) /\
                          (o_type o = NBool -> is_boolean (o_expr o) = true)) /\
  forall o1 o2 l1 l2 l3, outs = l1 ++ o1 :: l2 ++ o2 :: l3 -> o_usage o1 = 2 -> o_usage o2 <> 2.

(** The arguments that are read exist. *)
Definition loads_exist (N : names) (g : graph) (ops : list name) : Prop :=
  forall v a i, In v ops -> op_of g v = OLoad (LArg a i) -> exists s t, n_args N a = Some (s, t) /\ i < elements t.

(** What a caller who asks for some of the optional outputs is to get for an output. *)
Definition asked {A : algebra} (S : selecting A) (o : output) : bool :=
  match o_usage o with 0 => truth S (sem A (OOutReq (o_key o)) []) | _ => true end.
Definition shown {A : algebra} (z : output * D A) : StmtSpec.output A :=
  (if o_usage (fst z) =? 2 then None else Some (o_key (fst z)), snd z).
(** The value of an output, for those whose expression (in the order it is written) can be evaluated. *)
Definition means (I : impl) (n : nat) (s : ExprSpec.env) (o : output) (x : R) : Prop :=
  exists e, sort_expression I n (o_expr o) = Ok e /\ wf s e /\ lowerable I n s e /\ ExprSpec.eval s e = Rv x /\
            (o_type o = NInt -> exists z, x = IZR z).

(** The expressions of the target language mean what the operations do, for operations with as many operands as they
    need and arguments that exist. *)
Definition no_expression (o : op) : bool := match o with OGet _ | OConstruct _ => true | _ => control o end.
Definition interprets (A : algebra) (M : meaning (D A)) (N : names) : Prop :=
  forall o t l, no_expression o = false -> arity_ok o (length l) = true -> (commutative o = true -> l <> []) ->
    (forall a i, o = OLoad (LArg a i) -> exists s ty, n_args N a = Some (s, ty) /\ i < elements ty) ->
    (forall a, o = OLoad (LCustomArg a) -> exists z, n_args N a = Some z) ->
    operation_value M N o t l = Some (sem A o l).
(** The names of arguments and variables exist, and none is that of a temporary. *)
Record apart (N : names) (outer : string -> bool) : Prop := {
  ap_arg : forall i s t, n_args N i = Some (s, t) -> outer s = true;
  ap_var : forall v, outer (n_vars N v) = true;
  ap_temp : forall v, outer (variable_name (n_width N) v) = false
}.
