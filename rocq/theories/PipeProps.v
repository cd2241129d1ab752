(** C50: from a list of operations, and from expressions, to the statements of a function. *)
From Coq Require Import String List Arith ZArith Reals Bool Permutation Lia Lra.
From Verif Require Import Outcome ZeroProofs NumProofs IrModel IrSpec IrProofs IrProps IrPassProofs PassModel PassProofs PassBinarizeProofs PassProps CfgModel CfgSpec ConvModel ConvSpec ConvProps ConvTotalProps
  AstModel AstSpec StmtModel StmtSpec StmtProps StmtTotalProps BuildModel ExprModel ExprSpec OrderSpec BuildProps LowerModel LowerSpec LowerProps PipeModel PipeSpec PipeProofs PipeConv PipeLower.
Import ListNotations.
Open Scope outcome_scope.
Open Scope string_scope.
Open Scope nat_scope.
Open Scope list_scope.

Lemma filter_perm {X} (f : X -> bool) l l' : Permutation l l' -> Permutation (filter f l) (filter f l').
Proof.
  induction 1 as [|x l l' P IH|x y l|]; cbn [filter]; auto.
  - destruct (f x); auto.
  - destruct (f x), (f y); auto. apply perm_swap.
  - eapply perm_trans; eauto.
Qed.

(** The simplified program can be converted to branches, and hands out what the given one does. *)
Lemma simplified T g ops passes binarize : source T g ops -> exists n g' ops',
  (forall fuel, n <= fuel -> apply_simplifications fuel passes 0 binarize (g, ops) = Ok (g', ops')) /\
  program T g' 0 ops' /\ outputs_ok g' ops' /\ no_dead g' ops' /\ sim g ops g' ops'.
Proof.
  intros H. pose proof (so_program _ _ _ H) as P.
  destruct (apply_simplifications_spec 0 passes binarize g ops P) as (n & g' & ops' & E & P' & S' & U & _). exists n, g', ops'.
  assert (Z' : zero g') by exact (zero_simplified n passes binarize (g, ops) (g', ops') (proj1 (so_outputs _ _ _ H)) (E n (le_n n))).
  split; [assumption|]. split; [assumption|]. split; [now apply (kept_outputs_ok T g ops g' ops')|]. split; [|assumption].
  intros v Hv. apply (used_or_sink g' 0 ops' v P'). now apply U.
Qed.

(** For every program, simplifying it and converting its selects to branches ends with a result, for all settings, and
    its execution hands out exactly the outputs of the given program: all required ones and the optional ones that are
    asked for, each once. *)
Theorem C50_branches : forall T g ops passes binarize convert_ternaries, source T g ops ->
  exists n g' ops' c, (forall fuel, n <= fuel ->
    apply_simplifications fuel passes 0 binarize (g, ops) = Ok (g', ops') /\ convert fuel convert_ternaries g' = Ok c) /\
  forall (A : algebra) (Q : selecting A), exists e0 b k e outs,
    exec A g ops (no_values A) = Some e0 /\ first_block c = Ok b /\
    ConvSpec.run A Q c k None b (start A) = Some (e, outs) /\ Permutation outs (filter (wanted Q) (outputs A g e0 ops)).
Proof.
  intros T g ops passes binarize ct H. destruct (simplified T g ops passes binarize H) as (n & g' & ops' & E & P' & O' & D' & S').
  destruct (C33_total T g' ops' ct P' O' D') as (m & c & Ec). exists (Nat.max n m), g', ops', c. split; [intros fuel L; split; [apply E|apply Ec]; lia|].
  intros A Q. destruct (kept_outputs T g ops g' ops' H P' S' A) as (e0 & e1 & X0 & X1 & Pm).
  destruct (C33_value T g' ops' m ct c P' O' (Ec m (le_n m)) A Q) as (e1' & b & k & e & outs & Y1 & Y2 & Y3 & Y4).
  rewrite X1 in Y1. injection Y1 as <-. exists e0, b, k, e, outs. repeat (split; [assumption|]).
  eapply perm_trans; [exact Y4|]. now apply filter_perm.
Qed.
Print Assumptions C50_branches.

(** The program of C33_value is one, with and without the optional output. *)
Lemma graph_source : source ex_typing graph_ex (seq 0 12).
Proof.
  destruct graph_ex_ok as (P & H & _). split; [exact P|exact H|reflexivity|]. clear.
  assert (B : forallb (fun v => forallb (fun a => match ty_of graph_ex a with TVoid => false | _ => true end) (args graph_ex v)) (seq 0 12) = true) by (vm_compute; reflexivity).
  intros v a Hv Ha E. rewrite forallb_forall in B. specialize (B v Hv). rewrite forallb_forall in B. specialize (B a Ha). rewrite E in B. discriminate B.
Qed.
Definition branches_ex (x y : Z) (asked : bool) : outcome (option (list (nat * string * Z))) :=
  let* st := apply_simplifications 40 2 0 true (graph_ex, seq 0 12) in let* c := convert 40 true (fst st) in let* b := first_block c in
  Ok (option_map snd (ConvSpec.run _ (int_selecting x y asked) c 20 None b (start _))).
Example C50_branches_ex : source ex_typing graph_ex (seq 0 12) /\
  [branches_ex 2 3 true; branches_ex 2 3 false; branches_ex (-2) 3 true; branches_ex 3 (-2) true] =
  [ Ok (Some [(0, "o", 3%Z); (2, "r", 3%Z)]); Ok (Some [(2, "r", 3%Z)]); Ok (Some [(0, "o", 6%Z); (2, "r", 6%Z)]);
    Ok (Some [(0, "o", (-6)%Z); (2, "r", (-1)%Z)]) ].
Proof. split; [exact graph_source|]. vm_compute. reflexivity. Qed.

(** And so does writing the statements: executed in the target language, they hand out the same. *)
Theorem C50_statements : forall T g ops passes binarize convert_ternaries N args, source T g ops -> returns_once g ops ->
  (forall v, In v ops -> has_form N args g v /\ forall i, op_of g v <> OGet i) ->
  exists n ss, (forall fuel, n <= fuel -> write_program fuel passes binarize convert_ternaries N args (g, ops) = Ok ss) /\
  forall (A : algebra) (Q : selecting A) (M : meaning (D A)) outer, interprets A M N -> apart N outer ->
    exists e0 outs, exec A g ops (no_values A) = Some e0 /\ Permutation outs (filter (wanted Q) (outputs A g e0 ops)) /\
      function_outputs A Q M outer ss = Some (map (as_output A) outs).
Proof.
  intros T g ops passes binarize ct N oargs H R F. destruct (simplified T g ops passes binarize H) as (n & g' & ops' & E & P' & O' & D' & S').
  pose proof (kept_returns_once T g ops g' ops' P' S' R) as R'.
  pose proof (kept_form T g ops g' ops' P' S' N oargs R F) as F'.
  destruct (C49_converted_total T g' ops' ct N oargs P' O' R' D' F') as (m & c & ss & Ec). exists (Nat.max n m), ss. split.
  - intros fuel L. unfold write_program. rewrite E by lia. cbn [bind fst]. destruct (Ec fuel ltac:(lia)) as [-> Ea]. cbn [bind]. exact Ea.
  - intros A Q M outer Im Ap. destruct (Ec m (le_n m)) as [Cm Am].
    pose proof (converted_expresses T g' ops' m ct c N oargs A M P' O' R' Cm F' Im) as Ex.
    destruct (C49_converted T g' ops' m ct c P' O' R' Cm A Q M N oargs outer m ss Ex (apart_separate N outer c Ap) Am) as (e1 & o & X1 & X2 & X3).
    destruct (kept_outputs T g ops g' ops' H P' S' A) as (e0 & e1' & X0 & X1' & Pm). rewrite X1 in X1'. injection X1' as <-.
    exists e0, o. split; [assumption|]. split; [|assumption]. eapply perm_trans; [exact X2|]. now apply filter_perm.
Qed.
Print Assumptions C50_statements.

(** Integers again; the two arguments can also be read as a whole, and operations that [int_sem] does not know give zero. *)
Definition arg_sem (x y : Z) (asked : bool) (o : op) (l : list Z) : Z :=
  match o with OLoad (LCustomArg 0) => x | OLoad (LCustomArg 1) => y | _ => int_sem x y asked o l end.
Definition arg_algebra (x y : Z) (asked : bool) : algebra.
Proof.
  refine {| D := Z; d0 := 0%Z; d1 := 1%Z; dadd := Z.add; dmul := Z.mul; dsub := Z.sub; dopp := Z.opp; d_ring := InitialRing.Zth; sem := arg_sem x y asked |}; reflexivity.
Defined.
Definition arg_selecting (x y : Z) (asked : bool) : selecting (arg_algebra x y asked).
Proof. refine {| truth := fun c : D (arg_algebra x y asked) => negb (Z.eqb c 0) |}. intros c a b. cbn. destruct (Z.eqb c 0); reflexivity. Defined.
Definition int_reading (x y : Z) : meaning Z := {|
  m_var := fun _ => 0%Z; m_arg := fun s _ => if String.eqb s "x" then x else y;
  m_elem := fun a _ _ => a; m_field := fun a _ => a; m_int := fun z => z; m_float := fun _ => 0%Z;
  m_bool := fun b => 0%Z; m_sym := fun _ => 0%Z; m_add := Z.add; m_mul := Z.mul; m_div := fun _ _ => 0%Z; m_neg := Z.opp;
  m_cmp := fun r a b => match r with IrModel.RLt => if (a <? b)%Z then 1%Z else 0%Z | IrModel.RLe => if (a <=? b)%Z then 1%Z else 0%Z | IrModel.REq => 0%Z end;
  m_cond := fun c a b => if Z.eqb c 0 then b else a; m_cast := fun _ a => a; m_std := fun _ _ => 0%Z; m_ext := fun _ _ _ => 0%Z |}.
Lemma int_interprets x y asked : interprets (arg_algebra x y asked) (int_reading x y) stmt_names.
Proof.
  assert (Ad : forall l a, AstSpec.chain Z.add a l = (a + fold_right Z.add 0 l)%Z) by (induction l as [|b l IH]; intros a; cbn; [ring|rewrite IH; ring]).
  assert (Mu : forall l a, AstSpec.chain Z.mul a l = (a * fold_right Z.mul 1 l)%Z) by (induction l as [|b l IH]; intros a; cbn; [ring|rewrite IH; ring]).
  intros o t l Ne Ar Cm La Lc. destruct o; cbn in Ne; try discriminate Ne; cbn in Ar.
  all: try (destruct l as [|a l]; [now destruct (Cm eq_refl)|]; cbn [operation_value]; cbn; rewrite ?Ad, ?Mu; reflexivity).
  all: try (destruct (length l); reflexivity); try reflexivity.
  all: do 4 try (destruct l as [|? l]; cbn in Ar; try discriminate Ar).
  all: try reflexivity.
  - destruct l0; try reflexivity.
    + destruct (La _ _ eq_refl) as (s & ty & E & _). destruct arg as [|[|a]]; cbn in E |- *; try (injection E as <- <-; reflexivity). destruct a; discriminate.
    + destruct (Lc _ eq_refl) as (z & E). destruct arg as [|[|a]]; cbn in E |- *; try reflexivity; destruct a; discriminate.
Qed.
Definition written_ex : outcome (list stmt) := write_program 40 2 true true stmt_names stmt_outs (graph_ex, seq 0 12).
Definition handed_ex (x y : Z) (asked : bool) : outcome (option (list (option string * Z))) :=
  let* ss := written_ex in Ok (function_outputs _ (arg_selecting x y asked) (int_reading x y) stmt_outer ss).
Example C50_statements_ex : source ex_typing graph_ex (seq 0 12) /\ returns_once graph_ex (seq 0 12) /\
  (forall v, In v (seq 0 12) -> has_form stmt_names stmt_outs graph_ex v /\ forall i, op_of graph_ex v <> OGet i) /\
  (forall x y asked, interprets (arg_algebra x y asked) (int_reading x y) stmt_names) /\ apart stmt_names stmt_outer /\
  written_ex = Ok
    [SDeclare "v01" (Some (AArg "y" false)); SDeclare "v00" (Some (AArg "x" false)); SDeclare "v03" (Some (AMul [AVar "v00"; AVar "v01"]));
     SDeclare "v02" (Some (ACompare IrModel.RLt (AVar "v00") (AVar "v01"))); SDeclare "v08" None;
     SBranch (ACompare IrModel.RLe (AVar "v03") (AVar "v01"))
       [SDeclare "v05" None; SBranch (AVar "v02") [SAssign "v05" (AVar "v03")] [SAssign "v05" (AAdd [AVar "v00"; AVar "v01"])];
        SAssign "v08" (ANeg (AVar "v05"))] [SAssign "v08" (AVar "v01")];
     SOptional "o" [SDeclare "v10" None; SBranch (AVar "v02") [SAssign "v10" (AVar "v08")] [SAssign "v10" (AVar "v03")]; SOutput "o" (AVar "v10")];
     SReturn (AVar "v08")] /\ 
  [handed_ex 2 3 true; handed_ex 2 3 false; handed_ex (-2) 3 true; handed_ex 3 (-2) true] =
  [Ok (Some [(Some "o", 3%Z); (None, 3%Z)]); Ok (Some [(None, 3%Z)]);
   Ok (Some [(Some "o", 6%Z); (None, 6%Z)]); Ok (Some [(Some "o", (-6)%Z); (None, (-1)%Z)])].
Proof.
  destruct graph_ex_ok as (_ & _ & R & _ & F). split; [exact graph_source|]. split; [exact R|]. split; [exact F|]. split; [exact int_interprets|]. split.
  - split.
    + intros [|[|i]] s t E; cbn in E; try (injection E as <- <-; reflexivity). destruct i; discriminate.
    + reflexivity.
    + intros v. reflexivity.
  - split; vm_compute; reflexivity.
Qed.

(** From expressions to statements, over the real numbers: if the expressions can be lowered at all, the rest succeeds
    for all settings.  The function hands out every required output and every optional one that is asked for, exactly
    once, and its value is that of its expression wherever that has one. *)
Theorem C50_expressions : forall I n K k outs st N args passes binarize convert_ternaries,
  impl_ok I -> outputs_fit args outs -> lower_all I n K k outs = Ok st -> loads_exist N (l_graph st) (l_ops st) ->
  exists enough ss, (forall fuel, enough <= fuel -> transpile I n K k fuel passes binarize convert_ternaries N args outs = Ok ss) /\
  forall s inp junk, env_ok s -> inputs_agree K s inp ->
  forall (Q : selecting (real_algebra inp junk)) M outer, interprets (real_algebra inp junk) M N -> apart N outer ->
    exists results o, map fst results = filter (asked Q) outs /\ Forall (fun z => forall x, means I n s (fst z) x -> snd z = x) results /\
      function_outputs (real_algebra inp junk) Q M outer ss = Some o /\ Permutation o (map (@shown (real_algebra inp junk)) results).
Proof.
  intros I n K k outs st N oargs passes binarize ct HI Hf Hl Ld.
  destruct (C50_statements lower_typing (l_graph st) (l_ops st) passes binarize ct N oargs
    (lowered_source I n K k outs st oargs HI Hf Hl) (lowered_once I n K k outs st oargs HI Hf Hl) (lowered_forms I n K k outs st N oargs HI Hf Hl Ld))
    as (m & ss & E & V).
  exists m, ss. split; [intros fuel L; unfold transpile; rewrite Hl; cbn [bind]; now apply E|].
  intros s inp junk Hs Hi Q M outer Im Ap. destruct (V (real_algebra inp junk) Q M outer Im Ap) as (e0 & o & X1 & X2 & X3).
  destruct (lowered_results I n K k outs st oargs HI Hf Hl s inp junk Hs Hi) as (e & rs & Y1 & Y2 & Y3 & Y4). rewrite X1 in Y1. injection Y1 as <-.
  set (A := real_algebra inp junk) in *.
  exists (filter (fun z => asked Q (fst z)) rs), (map (as_output A) o). split; [|split; [|split]].
  - rewrite <- Y2. clear. induction rs as [|z rs IH]; [reflexivity|]. cbn [filter map]. destruct (asked Q (fst z)); cbn [map]; now rewrite IH.
  - rewrite Forall_forall in *. intros z Hz. apply filter_In in Hz as [Hz _]. now apply Y3.
  - assumption.
  - rewrite Y4 in X2. apply (Permutation_map (as_output A)) in X2. refine (perm_trans X2 _).
    replace (map (as_output A) (filter (wanted Q) (map (fun z : output * R => (o_usage (fst z), o_key (fst z), snd z)) rs)))
      with (map (@shown A) (filter (fun z => asked Q (fst z)) rs)); [apply Permutation_refl|].
    clear. induction rs as [|z rs IH]; [reflexivity|]. cbn [filter map].
    assert (W : wanted Q (o_usage (fst z), o_key (fst z), snd z) = asked Q (fst z)) by (unfold wanted, asked; destruct (o_usage (fst z)); reflexivity).
    rewrite W. destruct (asked Q (fst z)); cbn [map]; now rewrite IH.
Qed.
Print Assumptions C50_expressions.

(** 2 x or x + y is returned, and x^3 is an optional output. *)
Definition ax : expr := EVar (VArg "x" 0 prim_floating).
Definition ay : expr := EVar (VArg "y" 0 prim_floating).
Definition outs_ex : list output :=
  [mk_out 2 "r" (ECond (ERel ExprModel.RLt ax ay) (EMul [EInt 2; ax]) (EAdd [ax; ay])) NFloat; mk_out 0 "o" (EPow ax (EInt 3)) NFloat].
Definition arg_ids : ids :=
  mk_ids (fun _ => 0) (fun s => if String.eqb s "x" then 0 else if String.eqb s "y" then 1 else 2) Z.to_nat (fun _ => 0%Z).
Definition arg_names : names :=
  mkn 2 (fun i => match i with 2 => Some ("x", ArgScalar) | 5 => Some ("y", ArgScalar) | _ => None end) (fun _ => "q").
Definition arg_outs (s : string) : option arg_type := if String.eqb s "o" then Some ArgScalar else None.
Definition arg_outer (s : string) : bool := existsb (String.eqb s) ["x"; "y"; "q"; "o"].
Section Reals.
Variables (x y : R) (wanted : bool).
Definition arg_inp (l : load_src) : R :=
  match l with
  | LArg 2 _ | LCustomArg 2 => x
  | LArg 5 _ | LCustomArg 5 => y
  | LArg _ _ => 0%R
  | _ => 1%R
  end.
Definition arg_env : ExprSpec.env :=
  ExprSpec.mk_env (fun v => match v with
    | VArg s _ prim_floating => if String.eqb s "x" then x else if String.eqb s "y" then y else 0%R
    | VArg _ _ _ => 0%R
    | _ => 1%R
    end) (fun _ _ => 0%R).
Definition arg_junk (o : op) (l : list R) : R := match o with OOutReq _ => if wanted then 1%R else 0%R | _ => 0%R end.
Definition reals_algebra : algebra := real_algebra arg_inp arg_junk.
Definition real_selecting : selecting reals_algebra.
Proof.
  refine {| truth := fun c : D reals_algebra => if Req_EM_T c 0%R then false else true |}.
  intros c a b. cbn. destruct (Req_EM_T c 0%R); reflexivity.
Defined.
Definition real_reading : meaning R := {|
  m_var := fun _ => 1%R; m_arg := fun s _ => if String.eqb s "x" then x else y;
  m_elem := fun a _ _ => a; m_field := fun a _ => a; m_int := IZR; m_float := LowerSpec.load_value arg_inp;
  m_bool := fun b : bool => if b then 1%R else 0%R; m_sym := fun c => LowerSpec.load_value arg_inp (LSym c);
  m_add := Rplus; m_mul := Rmult; m_div := fun a b => if Req_EM_T b 0%R then 0%R else (a / b)%R; m_neg := Ropp;
  m_cmp := fun r a b => real_sem arg_inp arg_junk (OCompare r) [a; b]; m_cond := fun c a b => if Req_EM_T c 0%R then b else a;
  m_cast := fun t a => real_sem arg_inp arg_junk (OCast t) [a];
  m_std := fun f l => real_sem arg_inp arg_junk (OCallStd f) l; m_ext := fun _ _ _ => 0%R |}.
Lemma real_interprets : interprets reals_algebra real_reading arg_names.
Proof.
  assert (Ad : forall l a, AstSpec.chain Rplus a l = (a + fold_right Rplus 0 l)%R) by (induction l as [|b l IH]; intros a; cbn; [ring|rewrite IH; ring]).
  assert (Mu : forall l a, AstSpec.chain Rmult a l = (a * fold_right Rmult 1 l)%R) by (induction l as [|b l IH]; intros a; cbn; [ring|rewrite IH; ring]).
  intros o t l Ne Ar Cm La Lc. destruct o; cbn in Ne; try discriminate Ne; cbn in Ar.
  all: try (destruct l as [|a l]; [now destruct (Cm eq_refl)|]; cbn [operation_value]; cbn; rewrite ?Ad, ?Mu; reflexivity).
  all: try (destruct (length l); reflexivity); try reflexivity.
  all: do 4 try (destruct l as [|? l]; cbn in Ar; try discriminate Ar).
  all: try reflexivity.
  destruct l0; try reflexivity.
  - destruct (La _ _ eq_refl) as (s & ty & E & _). do 6 (destruct arg as [|arg]; [cbn in E |- *; try discriminate; injection E as <- <-; reflexivity|]). discriminate.
  - destruct (Lc _ eq_refl) as (z & E). do 6 (destruct arg as [|arg]; [cbn in E |- *; try discriminate; reflexivity|]). discriminate.
Qed.
Lemma arg_agree : inputs_agree arg_ids arg_env arg_inp.
Proof.
  split; [reflexivity|]. split; [|split].
  - intros a i p. cbn [arg_ids id_arg arg_env ev]. destruct p; destruct (String.eqb a "x"); try destruct (String.eqb a "y"); reflexivity.
  - intros a i. now left.
  - intros a k Ha. do 6 (destruct a as [|a]; [first [now left|discriminate Ha]|]). now left.
Qed.
Lemma arg_env_ok : env_ok arg_env.
Proof. intros [s t|s i p|u t]; cbn; try exact Logic.I; destruct t; cbn; try exact Logic.I; lra. Qed.
End Reals.
Lemma meets_within I n e L : In e L ->
  (forall c, In c L -> (forall d, In d (DerivModel.children c) -> In d L) /\
    (forall l a a', c = EMul l -> In a l -> is_num a = true -> e_neg I n a = Ok a' -> In a' L) /\
    (forall b p, c = EPow b p -> ~ negative_exponent I p)) ->
  forall d, meets I n e d -> In d L.
Proof.
  intros He Hc d M. induction M as [e|e c d M IH D|e l a a' M IH Ha N E|e b p np r M IH Ne E1 E2]; auto.
  - destruct (Hc _ (IH He)) as (X & _). now apply X.
  - destruct (Hc _ (IH He)) as (_ & X & _). eapply X; eauto.
  - destruct (Hc _ (IH He)) as (_ & _ & X). now destruct (X b p eq_refl).
Qed.
Ltac met := repeat match goal with H : _ \/ _ |- _ => destruct H as [H|H] | H : False |- _ => destruct H end.
Lemma returned_means x y :
  means impl_ex 20 (arg_env x y) (nth 0 outs_ex (mk_out 0 "" EUndef NFloat)) (if Rlt_dec x y then 2 * x else x + y)%R.
Proof.
  eexists. split; [vm_compute; reflexivity|]. split; [|split; [|split; [|discriminate]]].
  - cbn. repeat split; try lia; try (repeat constructor; fail).
    all: vm_compute; discriminate.
  - intros d Md. apply (meets_within _ _ _ [ECond (ERel ExprModel.RLt ax ay) (EMul [EInt 2; ax]) (EAdd [ax; ay]); ERel ExprModel.RLt ax ay; EMul [EInt 2; ax]; EAdd [ax; ay]; EInt 2; EInt (-2); ax; ay]) in Md.
    + cbn in Md. met; subst d; split; try reflexivity; intros b p E; discriminate E.
    + now left.
    + intros c Hc. cbn in Hc. met; subst c; (split; [|split]); try (intros b p E; discriminate E); try (intros l a a' E; discriminate E).
      all: try (intros d' Hd; cbn in Hd; met; subst d'; cbn; tauto).
      intros l a a' E Ha N Ea. injection E as <-. cbn in Ha. met; subst a; [|discriminate]. vm_compute in Ea. injection Ea as <-. cbn; tauto.
  - cbn. destruct (Rlt_dec x y); cbn; destruct (Req_EM_T _ 1); try lra; try (destruct (Req_EM_T 0 0); [|lra]); f_equal; ring.
Qed.
Lemma optional_means x y : means impl_ex 20 (arg_env x y) (nth 1 outs_ex (mk_out 0 "" EUndef NFloat)) (x * x * x)%R.
Proof.
  eexists. split; [vm_compute; reflexivity|]. split; [|split; [|split; [|discriminate]]].
  - cbn. repeat split; vm_compute; discriminate.
  - assert (N : ~ negative_exponent impl_ex (EInt 3)) by (intros (c & m & E & N); vm_compute in E; injection E as <- <-; discriminate N).
    intros d Md. apply (meets_within _ _ _ [EPow ax (EInt 3); ax; EInt 3]) in Md.
    + cbn in Md. met; subst d; split; try reflexivity; intros b p E; try discriminate E. injection E as <- <-. intros Np. now destruct N.
    + now left.
    + intros c Hc. cbn in Hc. met; subst c; (split; [|split]); try (intros l a a' E; discriminate E); try (intros b p E; discriminate E).
      all: try (intros d' Hd; cbn in Hd; met; subst d'; cbn; tauto).
      intros b p E. now injection E as <- <-.
  - cbn [ExprSpec.eval]. rewrite (LowerProofs.vpow_nat (fun _ => True) (fun _ _ _ _ => Logic.I)) by reflexivity. f_equal. change (x ^ 3 = x * x * x)%R. ring.
Qed.
Definition transpiled_ex (fuel : nat) : outcome (list stmt) := transpile impl_ex 20 arg_ids 20 fuel 2 true true arg_names arg_outs outs_ex.
Lemma outs_fit : outputs_fit arg_outs outs_ex.
Proof.
  split.
  - intros o Ho. cbn in Ho. met; subst o; cbn; split; try lia; split; auto; try discriminate. now intros [].
  - intros o1 o2 l1 l2 l3 E U. destruct l1 as [|a l1]; cbn in E; injection E as <- E.
    + destruct l2 as [|b l2]; cbn in E; injection E as <- E; [discriminate|]. destruct l2; discriminate.
    + destruct l1 as [|b l1]; cbn in E; injection E as <- E; [destruct l2; discriminate|]. destruct l1; discriminate.
Qed.
Lemma reads_fit : exists st, lower_all impl_ex 20 arg_ids 20 outs_ex = Ok st /\ loads_exist arg_names (l_graph st) (l_ops st).
Proof.
  eexists. split; [vm_compute; reflexivity|]. intros v a i Hv Ho. cbn in Hv. met; subst v; vm_compute in Ho; try discriminate Ho; injection Ho as <- <-.
  all: cbn; eexists _, _; split; [reflexivity|]; cbn; lia.
Qed.
Lemma arg_apart : apart arg_names arg_outer.
Proof.
  split; [|reflexivity|reflexivity]. intros i s t E.
  do 6 (destruct i as [|i]; [cbn in E; try discriminate E; injection E as <- <-; reflexivity|]). discriminate E.
Qed.
(** The statements, and what they give back for all numbers. *)
Example C50_expressions_ex :
  transpiled_ex 40 = Ok
    [SDeclare "v00" (Some (AArg "x" false)); SOptional "o" [SOutput "o" (AMul [AVar "v00"; AVar "v00"; AVar "v00"])];
     SDeclare "v01" (Some (AArg "y" false)); SDeclare "v07" None;
     SBranch (ACompare IrModel.RLt (AVar "v00") (AVar "v01"))
       [SAssign "v07" (AMul [AVar "v00"; ACast NFloat (AInt 2)])] [SAssign "v07" (AAdd [AVar "v00"; AVar "v01"])];
     SReturn (AVar "v07")] /\ 
  forall x y wanted, exists enough ss o, (forall fuel, enough <= fuel -> transpiled_ex fuel = Ok ss) /\
    function_outputs (reals_algebra x y wanted) (real_selecting x y wanted) (real_reading x y wanted) arg_outer ss = Some o /\
    Permutation o ((None, if Rlt_dec x y then 2 * x else x + y)%R :: if wanted then [(Some "o", (x * x * x)%R)] else []).
Proof.
  split; [vm_compute; reflexivity|]. intros x y wanted. destruct reads_fit as (st & El & Ld).
  destruct (C50_expressions impl_ex 20 arg_ids 20 outs_ex st arg_names arg_outs 2 true true impl_ex_ok outs_fit El Ld) as (m & ss & Et & V).
  destruct (V (arg_env x y) (arg_inp x y) (arg_junk wanted) (arg_env_ok x y) (arg_agree x y) (real_selecting x y wanted) (real_reading x y wanted) arg_outer) as (rs & o & E1 & F & Eo & P).
  - apply real_interprets.
  - exact arg_apart.
  - exists m, ss, o. split; [exact Et|]. split; [exact Eo|].
    eapply perm_trans; [exact P|]. clear P Eo.
    assert (Af : filter (asked (real_selecting x y wanted)) outs_ex = if wanted then outs_ex else firstn 1 outs_ex)
      by (destruct wanted; cbn; [destruct (Req_EM_T 1 0); [lra|]|destruct (Req_EM_T 0 0); [|lra]]; reflexivity).
    apply (fun e => eq_trans e Af) in E1. pose proof (returned_means x y) as R1. pose proof (optional_means x y) as R2. unfold outs_ex in *. cbn [nth firstn] in *.
    destruct rs as [|[o1 v1] rs]; [destruct wanted; discriminate E1|]. clear V Et El Ld. destruct wanted.
    + cbn [map fst] in E1. injection E1 as -> E1. destruct rs as [|[o2 v2] [|? rs]]; try discriminate E1. cbn [map fst] in E1. injection E1 as ->.
      inversion_clear F as [|? ? F1 F']. inversion_clear F' as [|? ? F2 F'']. cbn [fst snd] in *. rewrite (F1 _ R1), (F2 _ R2). apply Permutation_refl.
    + cbn [map fst] in E1. injection E1 as -> E1. destruct rs; try discriminate E1.
      inversion_clear F as [|? ? F1 F']. cbn [fst snd] in *. rewrite (F1 _ R1). apply Permutation_refl.
Qed.

(** [apart] is needed: with an argument called v00 the function declares a second v00. *)
Definition bad_names : names :=
  mkn 2 (fun i => match i with 2 => Some ("v00", ArgScalar) | 5 => Some ("y", ArgScalar) | _ => None end) (fun _ => "q").
Theorem C50_names_refuted : exists N outer ss,
  (forall i s t, n_args N i = Some (s, t) -> outer s = true) /\ (forall v, outer (n_vars N v) = true) /\
  transpile impl_ex 20 arg_ids 20 40 2 true true N arg_outs outs_ex = Ok ss /\
  forall (A : algebra) (Q : selecting A) (M : meaning (D A)), function_outputs A Q M outer ss = None.
Proof.
  exists bad_names, (fun s => existsb (String.eqb s) ["v00"; "y"; "q"; "o"]). eexists. split; [|split; [reflexivity|split; [vm_compute; reflexivity|reflexivity]]].
  intros i s t E. do 6 (destruct i as [|i]; [cbn in E; try discriminate E; injection E as <- <-; reflexivity|]). discriminate E.
Qed.
Print Assumptions C50_names_refuted.
