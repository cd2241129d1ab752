(** The C++ text of statements is read as the statements. *)
From Coq Require Import String Ascii List Arith Bool Lia.
From Verif Require Import IrModel AstModel StmtModel CppSpec CppParse CppStmtSpec CppStmtModel AstSpec AstProofs CppBodySpec.
Import ListNotations.
Open Scope string_scope.
Open Scope nat_scope.

(** ** No list of tokens is read in two ways *)
Lemma split_first {A} (x : A) a : forall b r r', ~ In x a -> ~ In x b -> (a ++ x :: r = b ++ x :: r')%list -> a = b /\ r = r'.
Proof.
  induction a as [|y a IH]; intros [|z b] r r' Na Nb E; cbn in *.
  - now injection E as ->.
  - injection E as -> _. tauto.
  - injection E as -> _. tauto.
  - injection E as -> E. destruct (IH b r r') as [-> ->]; auto.
Qed.

Definition outside : list string := [";"; "{"; "}"; "="].
Definition clean (ts : list token) : Prop := Forall (fun t => match t with TPunct s => is_in s outside = false | _ => True end) ts.
Lemma clean_app a b : clean a -> clean b -> clean (a ++ b)%list.
Proof. intros A B. apply Forall_app. now split. Qed.
Lemma clean_not s ts : clean ts -> is_in s outside = true -> ~ In (TPunct s) ts.
Proof. intros C I H. unfold clean in C. rewrite Forall_forall in C. specialize (C _ H). cbv beta iota in C. congruence. Qed.
Lemma path_clean ts p : path_tokens ts p -> clean ts.
Proof. induction 1; repeat constructor; auto. Qed.
Lemma binop_clean n o : In o (binops n) -> is_in o outside = false.
Proof. intros H. do 7 (destruct n as [|n]; [cbn in H; intuition (subst; reflexivity)|]). destruct H. Qed.
Lemma unop_clean o : In o unops -> is_in o outside = false.
Proof. cbn. intuition (subst; reflexivity). Qed.
Lemma gram_clean : (forall n ts e, gram n ts e -> clean ts) /\ (forall ts l, gram_args ts l -> clean ts) /\
  (forall ts l, gram_args1 ts l -> clean ts).
Proof.
  apply (gram_ind3 (fun n ts e => clean ts) (fun ts l => clean ts) (fun ts l => clean ts)); intros;
    repeat match goal with
    | |- clean (_ ++ _)%list => apply clean_app
    | |- clean (_ :: _)%list => constructor
    | |- clean [] => constructor
    | |- Forall _ (_ ++ _)%list => apply clean_app
    | |- Forall _ [] => constructor
    | |- Forall _ (_ :: _)%list => constructor
    end; auto; eauto using path_clean, binop_clean, unop_clean.
Qed.
Lemma gram_clean0 ts e : gram 0 ts e -> clean ts.
Proof. apply gram_clean. Qed.

Lemma path_split ts p : path_tokens ts p -> forall ts' p' s s' r r', path_tokens ts' p' ->
  (ts ++ TWord s :: r = ts' ++ TWord s' :: r')%list -> ts = ts' /\ p = p' /\ s = s' /\ r = r'.
Proof.
  induction 1 as [a K|a ts p K H IH]; intros ts' p' s s' r r' H' E; inversion H' as [a' K'|a' ts1 p1 K' H1]; subst; cbn in E.
  - now injection E as -> -> ->.
  - discriminate.
  - discriminate.
  - injection E as -> E. destruct (IH ts1 p1 s s' r r' H1 E) as (-> & -> & -> & ->). auto.
Qed.
Lemma path_word ts p : path_tokens ts p -> Forall plain p -> exists s r, ts = (TWord s :: r)%list /\ plain s.
Proof. intros H F. destruct H; inversion F; subst; eauto. Qed.
(** A path is not followed by "=" right after its first word, as an assigned name is. *)
Lemma path_not_assign ts p s r s' r' : path_tokens ts p -> (ts ++ TWord s :: r = TWord s' :: TPunct "=" :: r')%list -> False.
Proof. intros H E. destruct H; cbn in E; discriminate. Qed.

Definition no_else (r : list token) : Prop := match r with TWord s :: _ => s <> "else" | _ => True end.
Definition begins_stmt (ts : list token) : Prop :=
  match ts with TWord s :: _ => s <> "else" | TPunct s :: _ => s = "*" | _ => False end.
Lemma plain_word s x : plain s -> is_in x stmt_words = true -> s <> x.
Proof. unfold plain. congruence. Qed.
Lemma sgram_begins ts s : sgram ts s -> begins_stmt ts.
Proof.
  destruct 1 as [b tt p s H F K|b tt p s te e H F K G|b s te e K G|te e G|tc c tl l G B|tc c tl l tr r G B B2]; cbn; try discriminate.
  - destruct b; [discriminate|]. destruct (path_word _ _ H F) as (w & q & -> & P). cbn. now apply (plain_word _ "else").
  - destruct b; [discriminate|]. destruct (path_word _ _ H F) as (w & q & -> & P). cbn. now apply (plain_word _ "else").
  - destruct b; [reflexivity|]. cbn. now apply (plain_word _ "else").
Qed.
Lemma bgram_no_else ts b r : bgram ts b -> no_else (ts ++ TPunct "}" :: r).
Proof.
  destruct 1 as [|ts s tb b S B]; [exact I|]. apply sgram_begins in S. destruct ts as [|[w|w|w] ts]; cbn in *; auto; contradiction.
Qed.
Scheme sgram_ind2 := Induction for sgram Sort Prop with bgram_ind2 := Induction for bgram Sort Prop.
Combined Scheme sgram_mut from sgram_ind2, bgram_ind2.

(** What kind of statement it is shows in its first two tokens. *)
Definition kind (ts : list token) : nat :=
  match ts with
  | TWord s :: ts' => if String.eqb s "const" then 0 else if String.eqb s "return" then 1 else if String.eqb s "if" then 2
                      else match ts' with TPunct o :: _ => if String.eqb o "=" then 4 else 5 | _ => 5 end
  | _ => 3
  end.
Definition skind (s : cstmt) : nat :=
  match s with
  | CsDeclare true _ _ _ => 0 | CsDeclare false _ _ _ => 5 | CsAssign true _ _ => 3 | CsAssign false _ _ => 4
  | CsReturn _ => 1 | CsIf _ _ _ => 2
  end.
Lemma kind_plain s ts : plain s -> kind (TWord s :: ts) = match ts with TPunct o :: _ => if String.eqb o "=" then 4 else 5 | _ => 5 end.
Proof.
  intros P. cbn. rewrite !(proj2 (String.eqb_neq _ _)); [reflexivity|..]; eapply plain_word; try exact P; reflexivity.
Qed.
Lemma kind_path tt p w s r : path_tokens tt p -> Forall plain p -> kind (tt ++ TWord w :: s :: r) = 5.
Proof. intros H F. destruct H; inversion F; subst; cbn [app]; now rewrite kind_plain. Qed.
Lemma sgram_kind ts s r : sgram ts s -> kind (ts ++ r) = skind s.
Proof.
  destruct 1 as [b tt p s H F K|b tt p s te e H F K G|b s te e K G|te e G|tc c tl l G B|tc c tl l tr r' G B B2]; try reflexivity.
  - destruct b; [reflexivity|]. cbn [const_tokens app]. rewrite <- app_assoc. cbn [app skind]. eapply kind_path; eassumption.
  - destruct b; [reflexivity|]. cbn [const_tokens app]. rewrite <- app_assoc. cbn [app skind]. eapply kind_path; eassumption.
  - destruct b; [reflexivity|]. cbn [star_tokens app]. now rewrite kind_plain.
Qed.

Theorem stmt_unique :
  (forall t1 s1, sgram t1 s1 -> forall t2 s2 r1 r2, sgram t2 s2 -> (t1 ++ r1 = t2 ++ r2)%list -> no_else r1 -> no_else r2 ->
     s1 = s2 /\ r1 = r2) /\
  (forall t1 b1, bgram t1 b1 -> forall t2 b2 r1 r2, bgram t2 b2 -> (t1 ++ TPunct "}" :: r1 = t2 ++ TPunct "}" :: r2)%list ->
     b1 = b2 /\ r1 = r2).
Proof.
  assert (forall ts e ts' e' r r', gram 0 ts e -> gram 0 ts' e' -> (ts ++ TPunct ";" :: r = ts' ++ TPunct ";" :: r')%list -> e = e' /\ r = r') as Semi.
  { intros ts e ts' e' r r' G G' E. apply split_first in E as [-> ->]; [|eapply clean_not; [eapply gram_clean0; eassumption|reflexivity]..].
    split; [|reflexivity]. eapply unambiguous; eassumption. }
  assert (forall ts e ts' e' r r', gram 0 ts e -> gram 0 ts' e' ->
            (ts ++ TPunct ")" :: TPunct "{" :: r = ts' ++ TPunct ")" :: TPunct "{" :: r')%list -> e = e' /\ r = r') as Brace.
  { intros ts e ts' e' r r' G G' E.
    assert ((ts ++ [TPunct ")"]) ++ TPunct "{" :: r = (ts' ++ [TPunct ")"]) ++ TPunct "{" :: r')%list as E2 by (rewrite <- !app_assoc; exact E).
    assert (forall ts e, gram 0 ts e -> ~ In (TPunct "{") (ts ++ [TPunct ")"])%list) as Nb.
    { intros a x Ga. eapply clean_not; [|reflexivity]. apply clean_app; [eapply gram_clean0; exact Ga|repeat constructor]. }
    apply split_first in E2 as [E2 ->]; [|eapply Nb; eassumption..]. apply app_inj_tail in E2 as [-> _].
    split; [|reflexivity]. eapply unambiguous; eassumption. }
  apply (sgram_mut (fun t1 s1 _ => forall t2 s2 r1 r2, sgram t2 s2 -> (t1 ++ r1 = t2 ++ r2)%list -> no_else r1 -> no_else r2 -> s1 = s2 /\ r1 = r2)
           (fun t1 b1 _ => forall t2 b2 r1 r2, bgram t2 b2 -> (t1 ++ TPunct "}" :: r1 = t2 ++ TPunct "}" :: r2)%list -> b1 = b2 /\ r1 = r2)).
  - (* declaration *)
    intros b tt p s H F K t2 s2 r1 r2 S E _ _.
    assert (skind (CsDeclare b p s None) = skind s2) as Ek.
    { rewrite <- (sgram_kind _ _ r2 S), <- E. symmetry. apply sgram_kind. now constructor. }
    destruct S as [b' tt' p' s' H' F' K'|b' tt' p' s' te' e' H' F' K' G'|b' s' te' e' K' G'|te' e' G'|tc' c' tl' l' G' B'|tc' c' tl' l' tr' r' G' B' B2'];
      cbn in Ek; try (destruct b; discriminate); try (destruct b, b'; discriminate);
      assert (b' = b) as -> by (destruct b, b'; cbn in Ek; congruence); rewrite <- !app_assoc in E; apply app_inv_head in E;
      rewrite <- ?app_assoc in E; cbn [app] in E; destruct (path_split _ _ H _ _ _ _ _ _ H' E) as (-> & -> & -> & E2); [|discriminate].
    now injection E2 as ->.
  - (* with a value *)
    intros b tt p s te e H F K G t2 s2 r1 r2 S E _ _.
    assert (skind (CsDeclare b p s (Some e)) = skind s2) as Ek.
    { rewrite <- (sgram_kind _ _ r2 S), <- E. symmetry. apply sgram_kind. now constructor. }
    destruct S as [b' tt' p' s' H' F' K'|b' tt' p' s' te' e' H' F' K' G'|b' s' te' e' K' G'|te' e' G'|tc' c' tl' l' G' B'|tc' c' tl' l' tr' r' G' B' B2'];
      cbn in Ek; try (destruct b; discriminate); try (destruct b, b'; discriminate);
      assert (b' = b) as -> by (destruct b, b'; cbn in Ek; congruence); rewrite <- !app_assoc in E; apply app_inv_head in E;
      rewrite <- ?app_assoc in E; cbn [app] in E; destruct (path_split _ _ H _ _ _ _ _ _ H' E) as (-> & -> & -> & E2); [discriminate|].
    injection E2 as E2. rewrite <- !app_assoc in E2. cbn [app] in E2. now destruct (Semi _ _ _ _ _ _ G G' E2) as [-> ->].
  - (* assignment *)
    intros b s te e K G t2 s2 r1 r2 S E _ _.
    assert (skind (CsAssign b s e) = skind s2) as Ek.
    { rewrite <- (sgram_kind _ _ r2 S), <- E. symmetry. apply sgram_kind. now constructor. }
    destruct S as [b' tt' p' s' H' F' K'|b' tt' p' s' te' e' H' F' K' G'|b' s' te' e' K' G'|te' e' G'|tc' c' tl' l' G' B'|tc' c' tl' l' tr' r' G' B' B2'];
      cbn in Ek; try (destruct b; discriminate); try (destruct b, b'; discriminate).
    assert (b' = b) as -> by (destruct b, b'; cbn in Ek; congruence). rewrite <- !app_assoc in E. apply app_inv_head in E.
    cbn [app] in E. injection E as <- E. rewrite <- !app_assoc in E. cbn [app] in E. now destruct (Semi _ _ _ _ _ _ G G' E) as [-> ->].
  - (* return *)
    intros te e G t2 s2 r1 r2 S E _ _.
    assert (skind (CsReturn e) = skind s2) as Ek.
    { rewrite <- (sgram_kind _ _ r2 S), <- E. symmetry. apply sgram_kind. now constructor. }
    destruct S as [b' tt' p' s' H' F' K'|b' tt' p' s' te' e' H' F' K' G'|b' s' te' e' K' G'|te' e' G'|tc' c' tl' l' G' B'|tc' c' tl' l' tr' r' G' B' B2'];
      cbn in Ek; try (destruct b'; discriminate); try discriminate.
    cbn [app] in E. injection E as E. rewrite <- !app_assoc in E. cbn [app] in E. now destruct (Semi _ _ _ _ _ _ G G' E) as [-> ->].
  - (* branch without else *)
    intros tc c tl l G B IH t2 s2 r1 r2 S E N1 N2.
    assert (skind (CsIf c l []) = skind s2) as Ek.
    { rewrite <- (sgram_kind _ _ r2 S), <- E. symmetry. apply sgram_kind. now constructor. }
    destruct S as [b' tt' p' s' H' F' K'|b' tt' p' s' te' e' H' F' K' G'|b' s' te' e' K' G'|te' e' G'|tc' c' tl' l' G' B'|tc' c' tl' l' tr' r' G' B' B2'];
      cbn in Ek; try (destruct b'; discriminate); try discriminate; cbn [app] in E; injection E as E;
      rewrite <- !app_assoc in E; cbn [app] in E; destruct (Brace _ _ _ _ _ _ G G' E) as [-> E2];
      rewrite <- ?app_assoc in E2; cbn [app] in E2; destruct (IH _ _ _ _ B' E2) as [-> E3].
    + now rewrite E3.
    + subst r1. cbn in N1. congruence.
  - (* branch with else *)
    intros tc c tl l tr r G B IH B2 IH2 t2 s2 r1 r2 S E N1 N2.
    assert (skind (CsIf c l r) = skind s2) as Ek.
    { rewrite <- (sgram_kind _ _ r2 S), <- E. symmetry. apply sgram_kind. now constructor. }
    destruct S as [b' tt' p' s' H' F' K'|b' tt' p' s' te' e' H' F' K' G'|b' s' te' e' K' G'|te' e' G'|tc' c' tl' l' G' B'|tc' c' tl' l' tr' r' G' B' B2'];
      cbn in Ek; try (destruct b'; discriminate); try discriminate; cbn [app] in E; injection E as E;
      rewrite <- !app_assoc in E; cbn [app] in E; destruct (Brace _ _ _ _ _ _ G G' E) as [-> E2];
      rewrite <- ?app_assoc in E2; cbn [app] in E2; destruct (IH _ _ _ _ B' E2) as [-> E3].
    + subst r2. cbn in N2. congruence.
    + injection E3 as E3. rewrite <- !app_assoc in E3. cbn [app] in E3. now destruct (IH2 _ _ _ _ B2' E3) as [-> ->].
  - (* no statements *)
    intros t2 b2 r1 r2 B E. destruct B as [|ts s tb b S B]; [now injection E as ->|].
    apply sgram_begins in S. destruct ts as [|[w|w|w] ts]; cbn in *; try contradiction; [discriminate|]. injection E as E1 _. subst w. discriminate.
  - intros ts s tb b S IHs B IHb t2 b2 r1 r2 B' E. destruct B' as [|ts' s' tb' b' S' B'].
    + apply sgram_begins in S. destruct ts as [|[w|w|w] ts]; cbn in *; try contradiction; [discriminate|]. injection E as E1 _. subst w. discriminate.
    + rewrite <- !app_assoc in E. destruct (IHs _ _ _ _ S' E) as [-> E2]; [eapply bgram_no_else; eassumption..|].
      destruct (IHb _ _ _ _ B' E2) as [-> ->]. auto.
Qed.
Theorem body_unique s b b' : body_reads s b -> body_reads s b' -> b = b'.
Proof.
  intros (ts & L & B) (ts' & L' & B'). rewrite L in L'. injection L' as E.
  exact (proj1 (proj2 stmt_unique _ _ B _ _ _ _ B' E)).
Qed.

(** ** Characters that begin a token wherever they stand *)
Definition breaks (c : ascii) : Prop := forall w, extends w c = false.
Lemma snoc_last w c d : last_char (snoc w c) d = c.
Proof. revert d. induction w as [|a w IH]; intros d; [reflexivity|]. cbn. apply IH. Qed.
Definition breaking (c : ascii) : bool :=
  negb (is_word_char c) && negb (is_digit c) && negb (Ascii.eqb c "." || Ascii.eqb c "+" || Ascii.eqb c "-") &&
  negb (existsb (fun p => Ascii.eqb (last_char p " ") c) long_punctuators).
Lemma breaking_breaks c : breaking c = true -> breaks c.
Proof.
  unfold breaking. rewrite !andb_true_iff, !negb_true_iff, !orb_false_iff. intros (((W & D) & (P1 & P2) & P3) & L) w.
  destruct w as [|a t]; [reflexivity|]. unfold extends. rewrite W, D, P1, P2, P3. cbn [orb andb].
  assert (is_in (snoc (String a t) c) long_punctuators = false) as ->.
  { destruct (is_in _ _) eqn:E; [|reflexivity]. exfalso. unfold is_in in E. apply existsb_exists in E as (p & I & E).
    apply String.eqb_eq in E. rewrite <- not_true_iff_false in L. apply L. apply existsb_exists. exists p. split; [exact I|].
    rewrite <- E, snoc_last. apply Ascii.eqb_refl. }
  destruct (is_letter a); [reflexivity|]. destruct (is_digit a || _); [reflexivity|].
  destruct t; rewrite ?andb_false_r; reflexivity.
Qed.
Lemma lex_break c s r : breaking c = true -> forall w, lex_from w (s ++ String c r) = (lex_from w s ++ lex_from "" (String c r))%list.
Proof.
  intros B. apply breaking_breaks in B. induction s as [|a s IH]; intros w.
  - cbn [append lex_from]. rewrite (B w), (B ""). reflexivity.
  - cbn [append lex_from]. destruct (extends w a); [apply IH|]. now rewrite IH, app_assoc.
Qed.
Lemma lex_from_space c w s : is_space c = true -> breaking c = true -> lex_from w (String c s) = (token_of w ++ lex s)%list.
Proof. intros S B. cbn [lex_from]. now rewrite (breaking_breaks _ B w), S. Qed.
Lemma lex_sp a b : lex (a ++ " " ++ b) = (lex a ++ lex b)%list.
Proof. unfold lex. cbn [append]. now rewrite lex_break by reflexivity. Qed.
Lemma lex_nl a b : lex (a ++ newline ++ b) = (lex a ++ lex b)%list.
Proof. unfold lex, newline. cbn [append]. now rewrite lex_break by reflexivity. Qed.
Lemma lex_punct c : breaking c = true -> is_space c = false -> forall r, halts (String c "") r -> lex (String c r) = (token_of (String c "") ++ lex r)%list.
Proof. intros B S r H. unfold lex. cbn [lex_from]. rewrite (breaking_breaks _ B ""), S. cbn [token_of app]. now rewrite lex_halt. Qed.

(** Indentation changes nothing. *)
Lemma lex_spaces k s : lex (spaces k ++ s) = lex s.
Proof. induction k as [|k IH]; [reflexivity|]. cbn [spaces append]. unfold lex. rewrite lex_from_space by reflexivity. exact IH. Qed.
Lemma lex_indent k s : forall w, lex_from w (indent_lines k s) = lex_from w s.
Proof.
  induction s as [|c s IH]; intros w; [reflexivity|]. cbn [indent_lines].
  destruct (Ascii.eqb c (ascii_of_nat 10)) eqn:E; cbn [andb].
  - apply Ascii.eqb_eq in E. subst c. rewrite !lex_from_space by reflexivity. f_equal.
    destruct s; cbn [negb]; [reflexivity|]. rewrite lex_spaces. apply IH.
  - cbn [lex_from]. rewrite !IH. reflexivity.
Qed.
Lemma lex_block k l : lex (spaces k ++ indent_lines k (join newline l)) = concat (map lex l).
Proof.
  rewrite lex_spaces. unfold lex at 1. rewrite lex_indent. fold (lex (join newline l)).
  induction l as [|a l IH]; [reflexivity|]. destruct l as [|b l]; [cbn; now rewrite app_nil_r|].
  change (join newline (a :: b :: l)) with (a ++ newline ++ join newline (b :: l))%string.
  rewrite lex_nl. cbn [map concat] in *. now rewrite IH.
Qed.
Lemma lex_brace_open rest : lex ("{" ++ rest) = (TPunct "{" :: lex rest)%list.
Proof. unfold lex. cbn [append lex_from extends]. cbn [is_space]. rewrite lex_halt; [reflexivity|]. destruct rest; reflexivity. Qed.
Lemma lex_brace_close rest : lex ("}" ++ rest) = (TPunct "}" :: lex rest)%list.
Proof. unfold lex. cbn [append lex_from extends]. cbn [is_space]. rewrite lex_halt; [reflexivity|]. destruct rest; reflexivity. Qed.
Lemma lex_braces l rest : lex (join_and_indent 2 ("{" ++ newline) (newline ++ "}") newline l ++ rest) =
  (TPunct "{" :: concat (map lex l) ++ TPunct "}" :: lex rest)%list.
Proof.
  unfold join_and_indent. rewrite !sapp_assoc, lex_brace_open. f_equal.
  change (newline ++ spaces 2 ++ indent_lines 2 (join newline l) ++ newline ++ "}" ++ rest)%string
    with ("" ++ newline ++ (spaces 2 ++ indent_lines 2 (join newline l) ++ newline ++ "}" ++ rest))%string.
  rewrite lex_nl. cbn [lex lex_from token_of app]. rewrite <- sapp_assoc, lex_nl, lex_block, lex_brace_close. reflexivity.
Qed.
Lemma lex_name s : identifier s -> lex s = [TWord s].
Proof. intros I. unfold lex. rewrite <- (sapp_nil s), lex_word by (try exact I; exact Logic.I). cbn. now rewrite sapp_nil. Qed.
Lemma lex_semi a : lex (a ++ ";") = (lex a ++ [TPunct ";"])%list.
Proof. unfold lex. now rewrite lex_break by reflexivity. Qed.
Lemma lex_paren_close a rest : lex (a ++ ") " ++ rest) = (lex a ++ TPunct ")" :: lex rest)%list.
Proof. unfold lex. cbn [append]. rewrite lex_break by reflexivity. f_equal. Qed.
Lemma lex_equals a rest : lex (a ++ " = " ++ rest) = (lex a ++ TPunct "=" :: lex rest)%list.
Proof.
  change (a ++ " = " ++ rest)%string with (a ++ " " ++ ("=" ++ " " ++ rest))%string. now rewrite lex_sp, lex_sp.
Qed.

(** ** Statements *)
Fixpoint stmt_ind' (P : stmt -> Prop) (Hd : forall n o, P (SDeclare n o)) (Ha : forall n e, P (SAssign n e))
  (Ho : forall k e, P (SOutput k e)) (Hr : forall e, P (SReturn e))
  (Hb : forall c l r, Forall P l -> Forall P r -> P (SBranch c l r)) (Hp : forall k l, Forall P l -> P (SOptional k l)) (s : stmt) : P s :=
  let all := fix all (l : list stmt) : Forall P l :=
    match l with [] => Forall_nil P | x :: t => Forall_cons x (stmt_ind' P Hd Ha Ho Hr Hb Hp x) (all t) end in
  match s with
  | SDeclare n o => Hd n o | SAssign n e => Ha n e | SOutput k e => Ho k e | SReturn e => Hr e
  | SBranch c l r => Hb c l r (all l) (all r) | SOptional k l => Hp k l (all l)
  end.

(** A machine whose only value is one is faithful. *)
Definition one_cpp : cpp := {|
  V := unit; c_id := fun _ => tt; c_num := fun _ => tt; c_bool := fun _ => tt; c_un := fun _ _ => tt; c_bin := fun _ _ _ => tt;
  c_cond := fun _ _ _ => tt; c_cast := fun _ _ => tt; c_call := fun _ _ => tt; c_dot := fun _ _ => tt |}.
Definition one_meaning : meaning unit := {|
  m_var := fun _ => tt; m_arg := fun _ _ => tt; m_elem := fun _ _ _ => tt; m_field := fun _ _ => tt; m_int := fun _ => tt;
  m_float := fun _ => tt; m_bool := fun _ => tt; m_sym := fun _ => tt; m_add := fun _ _ => tt; m_mul := fun _ _ => tt;
  m_div := fun _ _ => tt; m_neg := fun _ => tt; m_cmp := fun _ _ _ => tt; m_cond := fun _ _ _ => tt; m_cast := fun _ _ => tt;
  m_std := fun _ _ => tt; m_ext := fun _ _ _ => tt |}.
Lemma one_faithful span ftext : faithful span ftext one_cpp one_meaning.
Proof. constructor; reflexivity. Qed.

Section Body.
  Variable span : bool.
  Variable ftext : load_src -> string.
  Variable type : string -> string.
  Variable optional : string -> bool.
  Notation print := (cpp_stmt span ftext type optional).
  Notation says := (says span ftext).
  Notation stmt_says := (stmt_says span ftext type optional).

  Lemma expression_says e : fits ftext e -> exists t, gram 0 (lex (cpp_text span ftext e)) t /\ says e t.
  Proof.
    intros F. destruct (text_reads span ftext _ _ (one_faithful span ftext) e F) as (t & R & _). exists t. split; [exact R|].
    intros C M FF. destruct (text_reads span ftext C M FF e F) as (t' & R' & E). now rewrite (unambiguous _ _ _ R R').
  Qed.
  Definition printed (s : stmt) : Prop := exists s', sgram (lex (print s)) s' /\ stmt_says s s'.
  Lemma printed_all l : Forall printed l -> exists l', bgram (concat (map lex (map print l))) l' /\ Forall2 stmt_says l l'.
  Proof.
    induction 1 as [|s l (s' & G & S) _ (l' & B & F)]; [exists []; split; constructor|].
    exists (s' :: l')%list. split; [cbn; now constructor|now constructor].
  Qed.
  Lemma stmt_printed s : stmt_fits ftext type s -> printed s.
  Proof.
    induction s using stmt_ind'; intros F; inversion F; subst; unfold printed; cbn [cpp_stmt];
      repeat match goal with
      | H : type_ok _ _ |- _ => destruct H as (p & Hp & Fp)
      | H : variable_ok _ |- _ => destruct H as (Iv & Pv)
      | H : fits ftext _ |- _ => destruct (expression_says _ H) as (t & G & Sy); clear H
      end.
    - exists (CsDeclare true p n (Some t)). split; [|now constructor].
      change ("const " ++ type n ++ " " ++ n ++ " = " ++ cpp_text span ftext e ++ ";")%string
        with ("const" ++ " " ++ (type n ++ " " ++ (n ++ " = " ++ (cpp_text span ftext e ++ ";"))))%string.
      rewrite !lex_sp, lex_equals, lex_semi, (lex_name n) by assumption. exact (sg_init true _ p n _ t Hp Fp Pv G).
    - exists (CsDeclare false p n None). split; [|now constructor].
      rewrite lex_sp, lex_semi, (lex_name n) by assumption. exact (sg_declare false _ p n Hp Fp Pv).
    - exists (CsAssign false n t). split; [|now constructor].
      rewrite lex_equals, lex_semi, (lex_name n) by assumption. exact (sg_assign false n _ t Pv G).
    - exists (CsAssign (optional k) k t). split; [|now constructor].
      assert (lex (k ++ " = " ++ cpp_text span ftext e ++ ";") = (TWord k :: TPunct "=" :: lex (cpp_text span ftext e) ++ [TPunct ";"])%list) as L.
      { now rewrite lex_equals, lex_semi, (lex_name k) by assumption. }
      destruct (optional k).
      + assert (lex ("*" ++ k ++ " = " ++ cpp_text span ftext e ++ ";") = (TPunct "*" :: lex (k ++ " = " ++ cpp_text span ftext e ++ ";"))%list) as ->.
        { unfold lex. cbn [append lex_from extends]. cbn [is_space]. rewrite lex_halt; [reflexivity|].
          destruct k as [|c k]; [destruct Iv|]. cbn in Iv. destruct Iv as (Lc & _). cbn [append halts].
          unfold extends. cbn [is_letter is_digit]. destruct c as [b0 b1 b2 b3 b4 b5 b6 b7]; destruct b0, b1, b2, b3, b4, b5, b6, b7; try discriminate Lc; reflexivity. }
        rewrite L. exact (sg_assign true k _ t Pv G).
      + rewrite L. exact (sg_assign false k _ t Pv G).
    - exists (CsReturn t). split; [|now constructor].
      change ("return " ++ cpp_text span ftext e ++ ";")%string with ("return" ++ " " ++ (cpp_text span ftext e ++ ";"))%string.
      rewrite lex_sp, lex_semi. exact (sg_return _ t G).
    - assert (exists l', bgram (concat (map lex (map print l))) l' /\ Forall2 stmt_says l l') as (l' & Bl & Fl).
      { apply printed_all. rewrite Forall_forall in *. auto. }
      assert (exists r', bgram (concat (map lex (map print r))) r' /\ Forall2 stmt_says r r') as (r' & Br & Fr).
      { apply printed_all. rewrite Forall_forall in *. auto. }
      exists (CsIf t l' r'). split; [|now constructor].
      match goal with |- sgram (lex ("if (" ++ ?x)%string) _ => change ("if (" ++ x)%string with ("if" ++ " " ++ ("(" ++ x))%string end.
      rewrite lex_sp. unfold lex at 2. rewrite lex_open.
      match goal with |- sgram (_ ++ (_ :: lex_from "" ?x))%list _ => change (lex_from "" x) with (lex x) end.
      rewrite lex_paren_close, lex_braces.
      destruct r as [|r0 r].
      + inversion Fr; subst. cbn [lex lex_from token_of]. exact (sg_if _ t _ l' G Bl).
      + assert (lex (join_and_indent 2 (" else {" ++ newline) (newline ++ "}") newline (map print (r0 :: r))) =
                (TWord "else" :: TPunct "{" :: concat (map lex (map print (r0 :: r))) ++ [TPunct "}"])%list) as ->.
        { change (join_and_indent 2 (" else {" ++ newline) (newline ++ "}") newline (map print (r0 :: r)))
            with (" else" ++ " " ++ join_and_indent 2 ("{" ++ newline) (newline ++ "}") newline (map print (r0 :: r)))%string.
          rewrite lex_sp. rewrite <- (sapp_nil (join_and_indent 2 ("{" ++ newline) _ _ _)), lex_braces. reflexivity. }
        exact (sg_else _ t _ l' _ r' G Bl Br).
    - assert (exists l', bgram (concat (map lex (map print l))) l' /\ Forall2 stmt_says l l') as (l' & Bl & Fl).
      { apply printed_all. rewrite Forall_forall in *. auto. }
      exists (CsIf (CCast ["bool"] (CId [k])) l' []). split; [|now constructor].
      match goal with |- sgram (lex ("if (static_cast<bool>(" ++ k ++ ")) " ++ ?x)%string) _ =>
        assert (lex ("if (static_cast<bool>(" ++ k ++ ")) " ++ x) =
          (TWord "if" :: TPunct "(" :: (TWord "static_cast" :: TPunct "<" :: [TWord "bool"] ++ TPunct ">" :: TPunct "(" :: [TWord k] ++ [TPunct ")"]) ++
           TPunct ")" :: lex x)%list) as -> end.
      { match goal with |- lex ("if (static_cast<bool>(" ++ k ++ ")) " ++ ?x)%string = _ =>
          change ("if (static_cast<bool>(" ++ k ++ ")) " ++ x)%string with ("if (static_cast<bool>" ++ String "(" ((k ++ String ")" (") " ++ x))))%string end.
        unfold lex. rewrite lex_break by reflexivity.
        match goal with |- context [lex_from "" (String "(" ?r)] => change (String "(" r) with ("(" ++ r)%string; rewrite (lex_open r) end.
        rewrite lex_break by reflexivity. fold (lex k). rewrite (lex_name k) by assumption. reflexivity. }
      rewrite <- (sapp_nil (join_and_indent 2 ("{" ++ newline) _ _ _)), lex_braces.
      refine (sg_if _ (CCast ["bool"] (CId [k])) _ l' _ Bl).
      apply (gram_down 0 8); [lia|lia|]. apply g_cast; [now constructor|].
      apply (gram_down 0 8); [lia|lia|]. apply g_id. constructor. now apply identifier_kw.
  Qed.
  Theorem body_printed l : Forall (stmt_fits ftext type) l ->
    exists b, body_reads (cpp_body span ftext type optional l) b /\ Forall2 stmt_says l b.
  Proof.
    intros F. destruct (printed_all l) as (l' & B & S).
    { rewrite Forall_forall in *. auto using stmt_printed. }
    exists l'. split; [|exact S]. eexists. split; [|exact B].
    change (cpp_body span ftext type optional l) with (join_and_indent 2 ("{" ++ newline) (newline ++ "}") newline (map print l)).
    rewrite <- (sapp_nil (join_and_indent 2 _ _ _ _)), lex_braces. reflexivity.
  Qed.
End Body.
