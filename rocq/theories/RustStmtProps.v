(** C56: the Rust text of the body of a function is read as the statements it was written from. *)
From Coq Require Import String List Arith ZArith Bool Lia.
From Verif Require Import ExprModel PassModel BuildProps LowerModel LowerProps PipeModel PipeProps.
From Verif Require Import Outcome NumProofs IrModel CfgModel ConvModel ConvProps AstModel AstSpec AstTree AstProps StmtModel StmtSpec StmtConv StmtProps CppSpec CppStmtModel CppStmtProofs CppStmtProps StmtText RustSpec RustModel RustCodeSpec RustParse RustProofs RustTree RustProps RustStmtSpec RustStmtModel RustBodySpec RustStmtProofs StmtReturn.
Import ListNotations.
Open Scope outcome_scope.
Open Scope string_scope.
Open Scope nat_scope.

Lemma by_parse k ts t : rparse k 0 ts = Some (t, []) -> exists z, rgram 0 z ts t.
Proof.
  intros H. apply (proj1 (rparse_sound k)) in H; [|lia]. destruct H as (pre & z & E & G & _). rewrite app_nil_r in E. subst. eauto.
Qed.
(** No text is the body of a function in two ways, if its value does not begin with a selection. *)
Theorem C56_unambiguous : forall s b b' v v', rs_body_reads s b v -> rs_body_reads s b' v' -> b = b' /\ v = v'.
Proof. exact rs_body_unique. Qed.
Print Assumptions C56_unambiguous.
Example C56_unambiguous_ex : rs_body_reads "{ if a { *c = -a; } let d: f64 = if a { b } else { c }; if let Some(e) = e { } (d) }"
  [RsIf (RId ["a"]) [RsAssign true "c" (RUn "-" (RId ["a"]))] [];
   RsLet "d" ["f64"] (Some (RIf (RId ["a"]) (RId ["b"]) (RId ["c"]))); RsIfSome "e" "e" []] (Some (RId ["d"])).
Proof.
  exists [TWord "if"; TWord "a"; TPunct "{"; TPunct "*"; TWord "c"; TPunct "="; TPunct "-"; TWord "a"; TPunct ";"; TPunct "}";
    TWord "let"; TWord "d"; TPunct ":"; TWord "f64"; TPunct "="; TWord "if"; TWord "a"; TPunct "{"; TWord "b"; TPunct "}"; TWord "else"; TPunct "{"; TWord "c"; TPunct "}"; TPunct ";";
    TWord "if"; TWord "let"; TWord "Some"; TPunct "("; TWord "e"; TPunct ")"; TPunct "="; TWord "e"; TPunct "{"; TPunct "}"], [TPunct "("; TWord "d"; TPunct ")"].
  split; [vm_compute; reflexivity|]. split.
  - apply (rb_cons (TWord "if" :: [TWord "a"] ++ TPunct "{" :: [TPunct "*"; TWord "c"; TPunct "="; TPunct "-"; TWord "a"; TPunct ";"] ++ [TPunct "}"])).
    { destruct (by_parse 40 [TWord "a"] (RId ["a"]) eq_refl) as (z & G).
      apply (rs_if z); [exact G|]. apply (rb_cons [TPunct "*"; TWord "c"; TPunct "="; TPunct "-"; TWord "a"; TPunct ";"] _ []); [|constructor].
      destruct (by_parse 40 [TPunct "-"; TWord "a"] (RUn "-" (RId ["a"])) eq_refl) as (z2 & G2).
      now apply (rs_assign true "c" z2 [TPunct "-"; TWord "a"]). }
    apply (rb_cons (TWord "let" :: TWord "d" :: TPunct ":" :: [TWord "f64"] ++ TPunct "=" ::
      [TWord "if"; TWord "a"; TPunct "{"; TWord "b"; TPunct "}"; TWord "else"; TPunct "{"; TWord "c"; TPunct "}"] ++ [TPunct ";"])).
    { destruct (by_parse 40 [TWord "if"; TWord "a"; TPunct "{"; TWord "b"; TPunct "}"; TWord "else"; TPunct "{"; TWord "c"; TPunct "}"]
        (RIf (RId ["a"]) (RId ["b"]) (RId ["c"])) eq_refl) as (z & G).
      apply (rs_init "d" [TWord "f64"] ["f64"] z); [reflexivity|now constructor|exact G]. }
    apply (rb_cons (TWord "if" :: TWord "let" :: TWord "Some" :: TPunct "(" :: TWord "e" :: TPunct ")" :: TPunct "=" :: TWord "e" :: TPunct "{" :: [] ++ [TPunct "}"]) _ []);
      [|constructor]. apply rs_some; [reflexivity..|constructor].
  - destruct (by_parse 40 [TPunct "("; TWord "d"; TPunct ")"] (RId ["d"]) eq_refl) as (z & G). exact (rt_some z _ _ G Logic.I).
Qed.

(** The text written for statements is the body of a function, and it is read as those statements, one by one, with the
    expressions that they have; the value of a last one that returns is the value of the body. *)
Theorem C56_body : forall ftext custom borrows type l, rbody_fits ftext borrows type l ->
  exists b v, rs_body_reads (rs_body ftext custom borrows type l) b v /\ rbody_says ftext type l b v /\
    forall b' v', rs_body_reads (rs_body ftext custom borrows type l) b' v' -> b' = b /\ v' = v.
Proof.
  intros ftext custom borrows type l F. destruct (rbody_printed ftext custom borrows type l F) as (b & v & R & S).
  exists b, v. split; [exact R|]. split; [exact S|]. intros b' v' R'. exact (rs_body_unique _ _ _ _ _ R' R).
Qed.
Print Assumptions C56_body.

Definition rs_scalar (s : string) : string := if String.eqb s "v02" then "bool" else "f64".
Example C56_body_ex :
  (let* ss := statements_ex in Ok (rs_body no_floats no_custom borrow_first rs_scalar ss)) = Ok (lines
    ["{";
     "  let v01: f64 = y;";
     "  let v00: f64 = x;";
     "  let v03: f64 = v00 * v01;";
     "  let v02: bool = (v00) < (v01);";
     "  let v08: f64;";
     "  if (v03) <= (v01) {";
     "    let v05: f64;";
     "    if v02 {";
     "      v05 = v03;";
     "    } else {";
     "      v05 = v00 + v01;";
     "    }";
     "    v08 = -v05;";
     "  } else {";
     "    v08 = v01;";
     "  }";
     "  if let Some(o) = o {";
     "    let v10: f64;";
     "    if v02 {";
     "      v10 = v08;";
     "    } else {";
     "      v10 = v03;";
     "    }";
     "    *o = v10;";
     "  }";
     "  v08";
     "}"]) /\
  (exists ss, statements_ex = Ok ss /\ rbody_fits no_floats borrow_first rs_scalar ss).
Proof.
  split; [vm_compute; reflexivity|].
  let ss := eval vm_compute in statements_ex in match ss with Ok ?l => exists l end. split; [vm_compute; reflexivity|].
  assert (forall s, rs_type_ok rs_scalar s) as T.
  { intros s. unfold rs_type_ok, rs_scalar. destruct (String.eqb s "v02"); eexists; vm_compute; repeat constructor. }
  match goal with |- rbody_fits _ _ _ ?l => let i := eval cbv in (removelast l) in change l with (i ++ [SReturn (AVar "v08")])%list end.
  apply rbf_value; [|apply rf_var; repeat split|reflexivity].
  repeat match goal with
  | |- Forall _ _ => constructor
  | |- rstmt_fits _ _ _ _ => constructor
  | |- rs_type_ok _ _ => apply T
  | |- rs_name _ => repeat split
  | |- rs_fits _ _ (AVar _) => apply rf_var
  | |- rs_fits _ _ (AArg _ _) => apply rf_arg
  | |- rs_fits _ _ (ANeg _) => apply rf_neg; [|cbn; lia]
  | |- rs_fits _ _ (AAdd _) => apply rf_add; [|cbn; lia| |repeat constructor]
  | |- rs_fits _ _ (AMul _) => apply rf_mul; [|cbn; lia| |repeat constructor]
  | |- rs_fits _ _ (ACompare _ _ _) => apply rf_compare
  end.
Qed.

(** In the statements that are written for a function only the last one returns, in none of the branches. *)
Theorem C56_returns_last : forall N outs c b bs fuel ss, branching c b bs -> first_block c = Ok b -> create_ast N outs c fuel = Ok ss ->
  exists l, Forall no_return l /\ (ss = l \/ exists x, ss = (l ++ [SReturn x])%list).
Proof. intros N outs c b bs fuel ss B Fb E. exact (create_returns N outs c b bs B fuel ss Fb E). Qed.
Print Assumptions C56_returns_last.
Example C56_returns_last_ex : exists b bs ss l, branching converted_ex b bs /\ first_block converted_ex = Ok b /\
  create_ast stmt_names stmt_outs converted_ex 40 = Ok ss /\ ss = (l ++ [SReturn (AVar "v08")])%list /\ length l = 7.
Proof.
  destruct C49_converted_ex as (P & O & R & C & _).
  assert (convert 100 true graph_ex = Ok converted_ex) as C' by (vm_compute; reflexivity).
  destruct (converted_branching _ _ _ _ _ _ P O R C') as (b & bs & Fb & B). exists b, bs.
  let ss := eval vm_compute in (create_ast stmt_names stmt_outs converted_ex 40) in
    match ss with Ok ?l => let i := eval cbv in (removelast l) in exists l, i end.
  split; [exact B|]. split; [exact Fb|]. split; [vm_compute; reflexivity|]. split; reflexivity.
Qed.

Lemma type_last_any g d n : type_last g d n -> type_last g [] n.
Proof.
  induction 1 as [n H|n H|n H|n l a H Ea Da Pa Ta IH]; [now apply tl_cast|now apply tl_sign|now apply tl_float|].
  eapply tl_chain; eauto.
Qed.
Lemma rs_printable_any ftext borrows g d v : rs_printable ftext borrows g [] v -> rs_printable ftext borrows g d v.
Proof.
  intros [K1 K2 K3 K4 K5]. constructor; [exact K1| | | |].
  - intros a r E _. now apply (K2 a r).
  - intros a b r E I _. now apply (K3 a b r).
  - intros a E I _ T. apply (K4 a E I eq_refl). eapply type_last_any; exact T.
  - intros f i a E B I _. now apply (K5 f i a).
Qed.
Lemma mapM_first {A B} (f : A -> outcome B) l r : mapM f l = Ok r -> r = [] \/ exists a b t, In a l /\ f a = Ok b /\ r = (b :: t)%list.
Proof.
  destruct l as [|a l]; cbn; intros E; [injection E as <-; now left|]. bnd E b Hb. bnd E t Ht. injection E as <-. right. exists a, b, t. auto.
Qed.
Lemma access_other seq : forall x, if_first x = false -> if_first (fold_left access_field seq x) = false.
Proof. induction seq as [|a seq IH]; intros x H; [exact H|]. apply IH. now destruct a. Qed.
Lemma load_other N l x : visit_load N l = Ok x -> if_first x = false.
Proof.
  destruct l; cbn; intros E; try (now injection E as <-).
  - destruct (n_args N _) as [[s t]|]; [|discriminate]. unfold read_argument in E. destruct t as [|r c|el].
    + destruct (_ =? 0); [|discriminate]. now injection E as <-.
    + destruct (_ <? _); [|discriminate]. now injection E as <-.
    + destruct (nth_error el _) as [seq|]; [|discriminate]. injection E as <-. now apply access_other.
  - destruct (n_args N _) as [[s t]|]; [|discriminate]. now injection E as <-.
Qed.
Lemma visit_other N g d : (forall v, v < g_next g -> op_of g v <> OCond) -> (forall v a, v < g_next g -> In a (args g v) -> a < g_next g) ->
  forall k n e, n < g_next g -> visit_value N g d k n = Ok e -> if_first e = false.
Proof.
  intros NC Ar. induction k as [|k IH]; intros n e L E; [discriminate|].
  assert (forall a p x, In a (args g n) -> visit_argument N g d (visit_value N g d k) p a = Ok x -> if_first x = false) as Arg.
  { intros a p x Ia Ex. pose proof (Ar n a L Ia) as La. unfold visit_argument in Ex. destruct (declared d a); [now injection Ex as <-|].
    destruct p as [q|]; [|now apply (IH a)]. destruct (_ <=? q); [|now apply (IH a)]. bnd Ex y Hy. now injection Ex as <-. }
  assert (forall p r, mapM (visit_argument N g d (visit_value N g d k) p) (args g n) = Ok r -> if_first (AAdd r) = false) as Args.
  { intros p r Er. apply mapM_first in Er as [->|(a & b & t & Ia & Eb & ->)]; [reflexivity|]. exact (Arg a p b Ia Eb). }
  specialize (NC n L). cbn [visit_value] in E.
  destruct (op_of g n) as [ |f|f|t|r| | |t| |i| |l| | |s| |u s] eqn:En; try discriminate; try congruence.
  - bnd E x Hx. injection E as <-. exact (Args (Some addition) x Hx).
  - bnd E x Hx. now injection E as <-.
  - bnd E x Hx. now injection E as <-.
  - destruct (args g n) as [|a [|]]; try discriminate. bnd E x Hx. now injection E as <-.
  - destruct (args g n) as [|a [|b [|]]]; try discriminate. bnd E x Hx. bnd E y Hy. now injection E as <-.
  - destruct (args g n) as [|a [|]] eqn:Ea; try discriminate. exact (Arg a None e (or_introl eq_refl) E).
  - destruct (args g n) as [|a [|b [|]]] eqn:Ea; try discriminate. bnd E x Hx. bnd E y Hy. injection E as <-. exact (Arg a _ x (or_introl eq_refl) Hx).
  - destruct (args g n) as [|a [|]] eqn:Ea; try discriminate. destruct (ty_of g a) as [|t|r q|]; try discriminate.
    + destruct (_ =? 0); [|discriminate]. apply (IH a e); [apply (Ar n a L); rewrite Ea; now left|exact E].
    + destruct (_ <? _); [|discriminate]. bnd E x Hx. injection E as <-. exact (Arg a None x (or_introl eq_refl) Hx).
  - assert (visit_load N l = Ok e) as E' by now destruct (args g n). now apply load_other in E'.
  - destruct (2 <=? length (args g n)); [|discriminate]. bnd E x Hx. injection E as <-. exact (Args (Some multiplication) x Hx).
  - destruct (args g n) as [|a [|]]; try discriminate. bnd E x Hx. now injection E as <-.
Qed.

(** The same for all statements that are written for a function whose selections have become branches: if its operations
    keep to the pairs of operations that [rs_operand_ok] allows (see C54), and the outputs and the types of the temporaries
    have names. *)
Theorem C56_converted : forall ftext custom borrows type N outs c b bs fuel ss,
  rs_names_ok N -> branching c b bs -> first_block c = Ok b ->
  (forall v, v < g_next (c_vals c) -> node_ok (c_vals c) v /\ rs_printable ftext borrows (c_vals c) [] v /\ op_of (c_vals c) v <> OCond) ->
  (forall t v, In v (ops_of c t) -> v < g_next (c_vals c)) -> (forall k t, outs k = Some t -> rs_name k) ->
  (forall v, rs_type_ok type (variable_name (n_width N) v)) -> create_ast N outs c fuel = Ok ss ->
  exists l v, rs_body_reads (rs_body ftext custom borrows type ss) l v /\ rbody_says ftext type ss l v /\
    forall l' v', rs_body_reads (rs_body ftext custom borrows type ss) l' v' -> l' = l /\ v' = v.
Proof.
  intros ftext custom borrows type N outs c b bs fuel ss NO B Fb NK I1 Ok_ Ty E. apply C56_body.
  assert (Forall (stmt_all (fun e => rs_fits ftext borrows e /\ if_first e = false) (fun n => rs_name n /\ rs_type_ok type n) rs_name) ss) as A.
  { eapply create_all with (N := N) (outs := outs) (c := c); try exact E.
    - intros v. split; [apply variable_rs_name|apply Ty].
    - intros v. split; [apply rf_var, variable_rs_name|reflexivity].
    - intros d k v e L V. split.
      + eapply (rvisit_fit ftext borrows N (c_vals c) d); try eassumption.
        * intros w Lw. now apply NK.
        * intros w Lw. apply rs_printable_any. now apply NK.
      + eapply (visit_other N (c_vals c) d); try eassumption.
        * intros w Lw. now apply NK.
        * intros w a Lw Ia. exact (k_args _ _ (proj1 (NK w Lw)) a Ia).
    - exact Ok_.
    - exact I1.
    - intros v a L Ia. exact (k_args _ _ (proj1 (NK v L)) a Ia). }
  assert (forall s, no_return s -> stmt_all (fun e => rs_fits ftext borrows e /\ if_first e = false) (fun n => rs_name n /\ rs_type_ok type n) rs_name s ->
            rstmt_fits ftext borrows type s) as Fit.
  { clear. intros s NR A. induction s using stmt_ind'; inversion A; subst; inversion NR; subst;
      repeat match goal with H : _ /\ _ |- _ => destruct H end; constructor; auto; rewrite Forall_forall in *; auto. }
  destruct (C56_returns_last N outs c b bs fuel ss B Fb E) as (l & Fl & [->|(x & ->)]).
  - apply rbf_none. rewrite Forall_forall in *. auto.
  - apply Forall_app in A as [A1 A2]. inversion A2 as [|s l0 A3 _]; subst. inversion A3 as [| | | |y [Fy Iy]| |]; subst.
    apply rbf_value; [|exact Fy|exact Iy]. rewrite Forall_forall in *. auto.
Qed.
Print Assumptions C56_converted.
Example C56_converted_ex : rs_names_ok stmt_names /\ (exists b bs, first_block converted_ex = Ok b /\ branching converted_ex b bs) /\
  (forall v, v < g_next (c_vals converted_ex) ->
    node_ok (c_vals converted_ex) v /\ rs_printable no_floats borrow_first (c_vals converted_ex) [] v /\ op_of (c_vals converted_ex) v <> OCond) /\
  (forall b v, In v (ops_of converted_ex b) -> v < g_next (c_vals converted_ex)) /\
  (forall k t, stmt_outs k = Some t -> rs_name k) /\ create_ast stmt_names stmt_outs converted_ex 40 = statements_ex.
Proof.
  destruct C55_converted_ex as (Ec & _ & NK & I1 & _ & Cr).
  assert (g_next (c_vals converted_ex) = 23) as G by (vm_compute; reflexivity).
  split; [|split; [|split; [|split; [|split]]]]; [| | |exact I1| |exact Cr].
  - constructor; cbn [stmt_names n_args n_vars].
    + intros [|[|i]] s t H; cbn in H; [injection H as <- <-; repeat split..|]. destruct i; discriminate.
    + intros v. repeat split.
  - destruct C49_converted_ex as (P & O & R & C & _).
    assert (convert 100 true graph_ex = Ok converted_ex) as C' by (vm_compute; reflexivity).
    exact (converted_branching _ _ _ _ _ _ P O R C').
  - intros v L. split; [exact (proj1 (NK v L))|]. rewrite G in L. clear NK I1 Cr Ec.
    do 23 (destruct v as [|v]; [split; [constructor;
      [vm_compute; auto
      |intros a r E _; vm_compute in E; first [discriminate E|injection E as <- <-; vm_compute; reflexivity]
      |intros a b r E I _; vm_compute in E; first [discriminate E|injection E as <- <-; cbn in I; intuition (subst; vm_compute; reflexivity)]
      |intros a E; vm_compute in E; discriminate E
      |intros f i a E; vm_compute in E; discriminate E]|vm_compute; discriminate]|]). lia.
  - intros k t. unfold stmt_outs. destruct (String.eqb k "o") eqn:E; [|discriminate]. apply String.eqb_eq in E. subst. intros _. repeat split.
Qed.

(** ** A text that is no body *)
Lemma stuck_after pre b : rbgram pre b -> forall rest,
  (forall ts l te v, rbgram ts l -> rtail te v -> (ts ++ te ++ [TPunct "}"] <> rest ++ [TPunct "}"])%list) -> rno_else (rest ++ [TPunct "}"]) ->
  forall ts l te v, rbgram ts l -> rtail te v -> (ts ++ te ++ [TPunct "}"] <> (pre ++ rest) ++ [TPunct "}"])%list.
Proof.
  induction 1 as [|t0 s tb b S B IH]; intros rest St Ne ts l te v Bl T E; [now apply (St ts l te v)|].
  assert (rno_else (tb ++ rest ++ [TPunct "}"])) as Ne'.
  { destruct B as [|t1 s1 tb b S1 B]; [exact Ne|]. rewrite <- app_assoc. exact (rsgram_no_else _ _ _ S1). }
  destruct Bl as [|t1 s1 t2 b2 S1 B2].
  - rewrite <- !app_assoc in E. exact (tail_not_stmt _ _ _ _ _ _ S T (eq_sym E)).
  - rewrite <- !app_assoc in E. destruct (proj1 rs_stmt_unique _ _ S1 _ _ _ _ S E) as [_ E2]; [eapply rbgram_no_else; eassumption|exact Ne'|].
    apply (IH rest St Ne t2 b2 te v B2 T). now rewrite E2, app_assoc.
Qed.
(** Behind [if c { x } ...] there is no way on: [x] is not a statement. *)
Lemma stuck_if z tc c x r : rgram 0 z tc c -> (forall t, tc <> TWord "let" :: t) -> forall ts l te v, rbgram ts l -> rtail te v ->
  (ts ++ te ++ [TPunct "}"] <> (TWord "if" :: tc ++ TPunct "{" :: TWord x :: TPunct "}" :: r) ++ [TPunct "}"])%list.
Proof.
  intros G Nl ts l te v Bl T E.
  assert (forall z' tc' c' tl q r' r, rgram 0 z' tc' c' -> rbgram tl q ->
    (TWord "if" :: tc' ++ TPunct "{" :: tl ++ TPunct "}" :: r')%list <> (TWord "if" :: tc ++ TPunct "{" :: TWord x :: TPunct "}" :: r)%list) as No.
  { intros z' tc' c' tl q r' r0 G' B' E'. injection E' as E'.
    pose proof (fun A B => expr_split _ _ _ _ _ _ _ _ G' G A B E') as X. destruct X as [_ X]; [cbn; auto 6..|]. injection X as X.
    destruct B' as [|t1 s1 t2 b2 S1 B2]; [discriminate X|].
    destruct S1 as [s tt p K H|s tt p y te' e K H G1|[] s y te' e K G1|y t3 c3 tl l' G1 B1|y t3 c3 tl l' tr r3 G1 B1 B3|s o tl l' K1 K2 B1]; cbn in X; try discriminate X;
      injection X as _ X; pose proof (proj1 rgram_head _ _ _ _ G1) as Hd; destruct t3 as [|[?|?|?] t3]; cbn in X, Hd; try contradiction; try discriminate X;
      injection X as -> _; intuition discriminate. }
  destruct Bl as [|t1 s1 t2 b2 S1 B2].
  - destruct T as [|z2 te e G2 Nb]; cbn in E; [discriminate E|]. destruct te as [|[w|w|w] te]; cbn in E, Nb; try discriminate E. injection E as E0 _. now apply Nb.
  - rewrite <- !app_assoc in E. cbn [app] in E. rewrite <- app_assoc in E. cbn [app] in E.
    destruct S1 as [s tt p K H|s tt p y te' e K H G1|[] s y te' e K G1|y t3 c3 tl l' G1 B1|y t3 c3 tl l' tr r3 G1 B1 B3|s o tl l' K1 K2 B1]; cbn [app rs_star] in E; try discriminate E.
    + injection E as E _. subst s. discriminate K.
    + rewrite <- app_assoc in E. cbn [app] in E. rewrite <- app_assoc in E. exact (No _ _ _ _ _ _ _ G1 B1 E).
    + rewrite <- app_assoc in E. cbn [app] in E. rewrite <- app_assoc in E. exact (No _ _ _ _ _ _ _ G1 B1 E).
    + injection E as E. destruct tc as [|a tc]; cbn in E; [discriminate E|]. injection E as <- _. exact (Nl tc eq_refl).
Qed.

(** Two selections that were not made branches, added: [if c { x } else { y } + ...] as the value of the function.  Where a
    statement may begin Rust takes the first selection for one, which does not go on with a plus sign. *)
Theorem C56_selection_refuted : exists e ss tree,
  transpile impl_ex 20 arg_ids 20 40 2 true false arg_names arg_outs [mk_out 2 "r" e NFloat] = Ok ss /\ In (SReturn tree) ss /\
  rs_fits no_floats borrow_first tree /\
  forall b v, ~ rs_body_reads (rs_body no_floats no_custom borrow_first rs_scalar ss) b v.
Proof.
  exists (EAdd [ECond (ERel ExprModel.RLt ax ay) ax ay; ECond (ERel ExprModel.RLe ax ay) ax ay]).
  do 2 eexists. split; [vm_compute; reflexivity|]. split; [cbn; right; right; left; reflexivity|]. split.
  { repeat match goal with
    | |- Forall _ _ => constructor
    | |- rs_name _ => repeat split
    | |- rs_fits _ _ (AVar _) => apply rf_var
    | |- rs_fits _ _ (AAdd _) => apply rf_add; [|cbn; lia| |repeat constructor]
    | |- rs_fits _ _ (ATernary _ _ _) => apply rf_ternary
    | |- rs_fits _ _ (AParen _) => apply rf_paren
    | |- rs_fits _ _ (ACompare _ _ _) => apply rf_compare
    end. }
  intros b v (ts & te & L & B & T). 
  match type of L with ?x = _ => let y := eval vm_compute in x in replace x with y in L by (vm_compute; reflexivity) end.
  injection L as L.
  destruct (by_parse 40 [TWord "x"] (RId ["x"]) eq_refl) as (zx & Gx). destruct (by_parse 40 [TWord "y"] (RId ["y"]) eq_refl) as (zy & Gy).
  destruct (by_parse 40 [TPunct "("; TPunct "("; TWord "v00"; TPunct ")"; TPunct "<"; TPunct "("; TWord "v01"; TPunct ")"; TPunct ")"]
    (RBin "<" (RId ["v00"]) (RId ["v01"])) eq_refl) as (z & G).
  assert (rs_path [TWord "f64"] ["f64"]) as P by now constructor.
  pose proof (rb_cons _ _ _ _ (rs_init "v01" _ _ zy _ _ eq_refl P Gy) (rb_cons _ _ _ _ (rs_init "v00" _ _ zx _ _ eq_refl P Gx) rb_nil)) as Pre.
  refine (stuck_after _ _ Pre _ (stuck_if z _ _ "v00" (TWord "else" :: TPunct "{" :: TWord "v01" :: TPunct "}" :: TPunct "+" :: TWord "if" ::
    TPunct "(" :: TPunct "(" :: TWord "v00" :: TPunct ")" :: TPunct "<=" :: TPunct "(" :: TWord "v01" :: TPunct ")" :: TPunct ")" ::
    TPunct "{" :: TWord "v00" :: TPunct "}" :: TWord "else" :: TPunct "{" :: TWord "v01" :: [TPunct "}"])%list G ltac:(discriminate)) _ ts b te v B T _);
    [cbn; discriminate|]. rewrite <- L. reflexivity.
Qed.
Print Assumptions C56_selection_refuted.
