(** The Rust text of statements is read as the statements. *)
From Coq Require Import String Ascii List Arith ZArith Bool Lia.
From Verif Require Import IrModel AstModel AstSpec AstProofs StmtModel CppSpec CppParse CppStmtModel CppStmtProofs RustSpec RustParse RustModel RustCodeSpec RustProofs RustStmtSpec RustStmtModel RustBodySpec.
Import ListNotations.
Open Scope string_scope.
Open Scope nat_scope.

(** ** No list of tokens is read in two ways *)
Definition ends_expr (rest : list token) : Prop := match rest with TPunct o :: _ => In o [";"; "{"; "}"; "="] | _ => False end.
Lemma ends_follow z rest : ends_expr rest -> rfollow 0 z rest.
Proof.
  destruct rest as [|[s|s|o] r]; cbn; try tauto. intros H. repeat destruct H as [H|H]; try contradiction; subst o;
    (split; [binop_cases|split; [reflexivity|split; [reflexivity|discriminate]]]).
Qed.
Lemma expr_split z z' ts ts' e e' r r' : rgram 0 z ts e -> rgram 0 z' ts' e' -> ends_expr r -> ends_expr r' ->
  (ts ++ r = ts' ++ r')%list -> e = e' /\ r = r'.
Proof.
  intros G G' F F' E. apply (proj1 rparse_complete) in G, G'. specialize (G r (ends_follow _ _ F)). specialize (G' r' (ends_follow _ _ F')).
  rewrite E in G. pose proof (ev_fun _ _ _ G G') as X. now injection X.
Qed.
Lemma rpath_split ts ts' p p' o o' r r' : rs_path ts p -> rs_path ts' p' ->
  (ts ++ TPunct o :: r = ts' ++ TPunct o' :: r')%list -> o <> "::" -> o' <> "::" -> p = p' /\ o = o' /\ r = r'.
Proof.
  intros G G' E N N'. pose proof (rs_path_parse _ _ (TPunct o :: r) G ltac:(cbn; split; [assumption|discriminate])) as H.
  pose proof (rs_path_parse _ _ (TPunct o' :: r') G' ltac:(cbn; split; [assumption|discriminate])) as H'. rewrite E, H' in H.
  now injection H as -> -> ->.
Qed.

(** The first word of an expression. *)
Definition rhead_ok (ts : list token) : Prop :=
  match ts with
  | TWord s :: _ => is_in s rs_keywords = false \/ In s ["true"; "false"; "if"]
  | TPunct o :: _ => In o ["("; "-"; "!"; "*"; "&"]
  | TNum _ :: _ => True
  | [] => False
  end.
Lemma rhead_app a b : rhead_ok a -> rhead_ok (a ++ b).
Proof. destruct a as [|[]]; cbn; tauto. Qed.
Lemma rgram_head : (forall n z ts e, rgram n z ts e -> rhead_ok ts) /\ (forall ts l, rgram_args ts l -> True) /\ (forall ts l, rgram_args1 ts l -> True).
Proof.
  apply (rgram_ind3 (fun n z ts e => rhead_ok ts) (fun _ _ => True) (fun _ _ => True)); intros; auto; try (now apply rhead_app); cbn; auto 6.
  all: match goal with H : rs_path ?ts ?p |- rhead_ok ?ts => destruct (rs_path_begins _ _ H) as (s & r & -> & K); cbn; now left | _ => idtac end.
Qed.

Definition rno_else (r : list token) : Prop := match r with TWord s :: _ => s <> "else" | _ => True end.
Lemma free_word s x : rs_free s -> is_in x rs_keywords = true -> s <> x.
Proof. unfold rs_free. congruence. Qed.
Lemma rhead_word ts w r : rhead_ok ts -> (ts = TWord w :: r)%list -> In w ["let"; "else"] -> False.
Proof.
  intros H -> I. cbn in H, I. destruct I as [<-|[<-|[]]]; cbv in H; destruct H as [H|H]; try discriminate; repeat (destruct H as [H|H]; try discriminate); auto.
Qed.

(** What kind of statement it is. *)
Definition rkind (ts : list token) : nat :=
  match ts with
  | TWord s :: ts' => if String.eqb s "let" then 0 else if String.eqb s "if" then
                        match ts' with TWord s' :: _ => if String.eqb s' "let" then 2 else 1 | _ => 1 end
                      else 3
  | _ => 4
  end.
Definition rskind (s : rstmt) : nat :=
  match s with RsLet _ _ _ => 0 | RsIf _ _ _ => 1 | RsIfSome _ _ _ => 2 | RsAssign false _ _ => 3 | RsAssign true _ _ => 4 end.
Lemma rkind_if z tc c r : rgram 0 z tc c -> rkind (TWord "if" :: tc ++ r) = 1.
Proof.
  intros G. pose proof (proj1 rgram_head _ _ _ _ G) as H. destruct tc as [|[s|s|o] tc]; try reflexivity; [destruct H|]. cbn [app rkind String.eqb Ascii.eqb Bool.eqb].
  destruct (String.eqb s "let") eqn:E; [|reflexivity]. exfalso. apply String.eqb_eq in E. subst s. apply (rhead_word _ "let" tc H eq_refl). now left.
Qed.
Lemma rsgram_kind ts s r : rsgram ts s -> rkind (ts ++ r) = rskind s.
Proof.
  destruct 1 as [s tt p K H|s tt p z te e K H G|b s z te e K G|z tc c tl l G B|z tc c tl l tr q G B B2|s o tl l K1 K2 B]; try reflexivity.
  - destruct b; [reflexivity|]. cbn [rs_star app rkind rskind].
    rewrite !(proj2 (String.eqb_neq _ _)); [reflexivity|..]; eapply free_word; try exact K; reflexivity.
  - cbn [app rskind]. rewrite <- app_assoc. eapply rkind_if; exact G.
  - cbn [app rskind]. rewrite <- app_assoc. eapply rkind_if; exact G.
Qed.
Lemma rsgram_no_else ts s r : rsgram ts s -> rno_else (ts ++ r).
Proof.
  destruct 1 as [s tt p K H|s tt p z te e K H G|b s z te e K G|z tc c tl l G B|z tc c tl l tr q G B B2|s o tl l K1 K2 B]; cbn; try discriminate.
  destruct b; [exact Logic.I|]. cbn. eapply free_word; [exact K|reflexivity].
Qed.
Lemma rtail_no_else te x r : rtail te x -> rno_else (te ++ TPunct "}" :: r).
Proof.
  destruct 1 as [|z te e G N]; [exact Logic.I|]. pose proof (proj1 rgram_head _ _ _ _ G) as H.
  destruct te as [|[s|s|o] te]; cbn; auto. intros ->. apply (rhead_word _ "else" te H eq_refl). cbn. auto.
Qed.
Lemma rbgram_no_else ts b te x r : rbgram ts b -> rtail te x -> rno_else (ts ++ te ++ TPunct "}" :: r).
Proof.
  intros B T. destruct B as [|ts s tb b S B]; [eapply rtail_no_else; exact T|]. rewrite <- app_assoc. eapply rsgram_no_else; exact S.
Qed.
(** The expression at the end is no statement. *)
Lemma tail_not_stmt ts s te x r r' : rsgram ts s -> rtail te x -> (ts ++ r = te ++ TPunct "}" :: r')%list -> False.
Proof.
  intros S T E. destruct T as [|z te e G N].
  - cbn in E. destruct S as [s tt p K H|s tt p z te e K H G|[] s z te e K G|z tc c tl l G B|z tc c tl l tr q G B B2|s o tl l K1 K2 B]; discriminate E.
  - pose proof (proj1 rgram_head _ _ _ _ G) as Hd.
    assert (forall w t, In w ["let"; "if"] -> (TWord w :: t = te ++ TPunct "}" :: r')%list -> False) as Wd.
    { intros w t I Ew. destruct te as [|[s1|s1|o] te]; cbn in Ew; try discriminate; injection Ew as <- Ew.
      destruct I as [<-|[<-|[]]]; [apply (rhead_word _ "let" te Hd eq_refl); now left|now apply N]. }
    destruct S as [s tt p K H|s tt p z' te' e' K H G'|b s z' te' e' K G'|z' tc c tl l G' B|z' tc c tl l tr q G' B B2|s o tl l K1 K2 B];
      try (cbn [app] in E; eapply Wd; [|exact E]; cbn; auto; fail).
    assert (exists z1 e1, rgram 0 z1 (rs_star b ++ [TWord s])%list e1) as (z1 & e1 & G1).
    { assert (forall n z ts e, n <= 5 -> rgram 5 z ts e -> exists z', rgram n z' ts e) as Down.
      { intros n z0 t0 e0 L G0. destruct (Nat.eq_dec n 5) as [->|Ne]; [eauto|]. assert (rgram 4 ENone t0 e0) as G4 by (eapply rg_up5; exact G0).
        exists ENone. assert (n <= 4) as L4 by lia. clear -G4 L4. remember (4 - n) as k. revert n Heqk L4.
        induction k as [|k IH]; intros n Hk L; [assert (n = 4) as -> by lia; exact G4|]. apply rg_up; [lia|]. apply IH; lia. }
      assert (rgram 5 ENone [TWord s] (RId [s])) as G5 by (apply rg_id; now constructor).
      destruct b.
      - assert (rgram 4 ENone [TPunct "*"; TWord s] (RUn "*" (RId [s]))) as G4 by (apply (rg_un "*" [TWord s]); [cbn; auto|eapply rg_up5; exact G5]).
        exists ENone, (RUn "*" (RId [s])). do 4 (apply rg_up; [lia|]). exact G4.
      - destruct (Down 0 _ _ _ ltac:(lia) G5) as (z0 & G0). eauto. }
    assert ((rs_star b ++ [TWord s]) ++ TPunct "=" :: te' ++ [TPunct ";"] ++ r = te ++ TPunct "}" :: r')%list as E2.
    { rewrite <- E. destruct b; cbn; now rewrite <- app_assoc. }
    pose proof (fun A B => expr_split _ _ _ _ _ _ _ _ G1 G A B E2) as X. destruct X as [_ X]; [cbn; auto 6..|]. discriminate X.
Qed.
Lemma tail_split te te' x x' r r' : rtail te x -> rtail te' x' -> (te ++ TPunct "}" :: r = te' ++ TPunct "}" :: r')%list -> x = x' /\ r = r'.
Proof.
  assert (forall te e z r r', rgram 0 z te e -> (TPunct "}" :: r = te ++ TPunct "}" :: r')%list -> False) as Nil.
  { intros t e z q q' G E. pose proof (proj1 rgram_head _ _ _ _ G) as H. destruct t as [|[s|s|o] t]; cbn in E, H; try contradiction; try discriminate.
    injection E as <- _. intuition discriminate. }
  intros T T' E. destruct T as [|z te e G N], T' as [|z' te' e' G' N'].
  - now injection E as ->.
  - exfalso. exact (Nil _ _ _ _ _ G' E).
  - exfalso. exact (Nil _ _ _ _ _ G (eq_sym E)).
  - pose proof (fun A B => expr_split _ _ _ _ _ _ _ _ G G' A B E) as X. destruct X as [-> X]; [cbn; auto 6..|]. now injection X as ->.
Qed.

Scheme rsgram_ind2 := Induction for rsgram Sort Prop with rbgram_ind2 := Induction for rbgram Sort Prop.
Combined Scheme rsgram_mut from rsgram_ind2, rbgram_ind2.
Theorem rs_stmt_unique :
  (forall t1 s1, rsgram t1 s1 -> forall t2 s2 r1 r2, rsgram t2 s2 -> (t1 ++ r1 = t2 ++ r2)%list -> rno_else r1 -> rno_else r2 ->
     s1 = s2 /\ r1 = r2) /\
  (forall t1 b1, rbgram t1 b1 -> forall e1 x1 t2 b2 e2 x2 r1 r2, rtail e1 x1 -> rbgram t2 b2 -> rtail e2 x2 ->
     (t1 ++ e1 ++ TPunct "}" :: r1 = t2 ++ e2 ++ TPunct "}" :: r2)%list -> b1 = b2 /\ x1 = x2 /\ r1 = r2).
Proof.
  assert (forall z z' ts ts' e e' o r r', In o [";"; "{"; "}"; "="] -> rgram 0 z ts e -> rgram 0 z' ts' e' ->
    (ts ++ TPunct o :: r = ts' ++ TPunct o :: r')%list -> e = e' /\ r = r') as Split.
  { intros z z' ts ts' e e' o r r' I G G' E. destruct (expr_split _ _ _ _ _ _ (TPunct o :: r) (TPunct o :: r') G G' I I E) as [-> X]. now injection X as ->. }
  assert (forall tl l, rbgram tl l -> (forall e1 x1 t2 b2 e2 x2 r1 r2, rtail e1 x1 -> rbgram t2 b2 -> rtail e2 x2 ->
     (tl ++ e1 ++ TPunct "}" :: r1 = t2 ++ e2 ++ TPunct "}" :: r2)%list -> l = b2 /\ x1 = x2 /\ r1 = r2) ->
     forall t2 b2 r1 r2, rbgram t2 b2 -> (tl ++ TPunct "}" :: r1 = t2 ++ TPunct "}" :: r2)%list -> l = b2 /\ r1 = r2) as Inner.
  { intros tl l B IH t2 b2 r1 r2 B2 E. destruct (IH [] None t2 b2 [] None r1 r2 rt_none B2 rt_none E) as (H1 & _ & H2). auto. }
  apply (rsgram_mut (fun t1 s1 _ => forall t2 s2 r1 r2, rsgram t2 s2 -> (t1 ++ r1 = t2 ++ r2)%list -> rno_else r1 -> rno_else r2 -> s1 = s2 /\ r1 = r2)
           (fun t1 b1 _ => forall e1 x1 t2 b2 e2 x2 r1 r2, rtail e1 x1 -> rbgram t2 b2 -> rtail e2 x2 ->
     (t1 ++ e1 ++ TPunct "}" :: r1 = t2 ++ e2 ++ TPunct "}" :: r2)%list -> b1 = b2 /\ x1 = x2 /\ r1 = r2)).
  - intros s tt p K H t2 s2 r1 r2 S E _ _.
    assert (rskind (RsLet s p None) = rskind s2) as Ek.
    { rewrite <- (rsgram_kind _ _ r2 S), <- E. symmetry. apply rsgram_kind. now constructor. }
    destruct S as [s' tt' p' K' H'|s' tt' p' z' te' e' K' H' G'|b' s' z' te' e' K' G'|z' tc' c' tl' l' G' B'|z' tc' c' tl' l' tr' q' G' B' B2'|s' o' tl' l' K1' K2' B'];
      cbn in Ek; try discriminate; try (destruct b'; discriminate); cbn [app] in E; injection E as <- E; rewrite <- !app_assoc in E; cbn [app] in E;
      destruct (rpath_split _ _ _ _ _ _ _ _ H H' E ltac:(discriminate) ltac:(discriminate)) as (-> & Eo & ->); [auto|discriminate].
  - intros s tt p z te e K H G t2 s2 r1 r2 S E _ _.
    assert (rskind (RsLet s p (Some e)) = rskind s2) as Ek.
    { rewrite <- (rsgram_kind _ _ r2 S), <- E. symmetry. apply rsgram_kind. econstructor; eassumption. }
    destruct S as [s' tt' p' K' H'|s' tt' p' z' te' e' K' H' G'|b' s' z' te' e' K' G'|z' tc' c' tl' l' G' B'|z' tc' c' tl' l' tr' q' G' B' B2'|s' o' tl' l' K1' K2' B'];
      cbn in Ek; try discriminate; try (destruct b'; discriminate); cbn [app] in E; injection E as <- E; rewrite <- !app_assoc in E; cbn [app] in E;
      destruct (rpath_split _ _ _ _ _ _ _ _ H H' E ltac:(discriminate) ltac:(discriminate)) as (-> & Eo & E2); [discriminate|].
    rewrite <- !app_assoc in E2. cbn [app] in E2. destruct (Split _ _ _ _ _ _ ";" _ _ ltac:(cbn; auto) G G' E2) as [-> ->]. auto.
  - intros b s z te e K G t2 s2 r1 r2 S E _ _.
    assert (rskind (RsAssign b s e) = rskind s2) as Ek.
    { rewrite <- (rsgram_kind _ _ r2 S), <- E. symmetry. apply rsgram_kind. econstructor; eassumption. }
    destruct S as [s' tt' p' K' H'|s' tt' p' z' te' e' K' H' G'|b' s' z' te' e' K' G'|z' tc' c' tl' l' G' B'|z' tc' c' tl' l' tr' q' G' B' B2'|s' o' tl' l' K1' K2' B'];
      cbn in Ek; try (destruct b; discriminate).
    assert (b' = b) as -> by (destruct b, b'; cbn in Ek; congruence). rewrite <- !app_assoc in E. apply app_inv_head in E. cbn [app] in E. injection E as <- E.
    rewrite <- !app_assoc in E. cbn [app] in E. destruct (Split _ _ _ _ _ _ ";" _ _ ltac:(cbn; auto) G G' E) as [-> ->]. auto.
  - intros z tc c tl l G B IH t2 s2 r1 r2 S E N1 N2.
    assert (rskind (RsIf c l []) = rskind s2) as Ek.
    { rewrite <- (rsgram_kind _ _ r2 S), <- E. symmetry. apply rsgram_kind. econstructor; eassumption. }
    destruct S as [s' tt' p' K' H'|s' tt' p' z' te' e' K' H' G'|b' s' z' te' e' K' G'|z' tc' c' tl' l' G' B'|z' tc' c' tl' l' tr' q' G' B' B2'|s' o' tl' l' K1' K2' B'];
      cbn in Ek; try discriminate; try (destruct b'; discriminate); cbn [app] in E; injection E as E; rewrite <- !app_assoc in E; cbn [app] in E;
      destruct (Split _ _ _ _ _ _ "{" _ _ ltac:(cbn; auto) G G' E) as [-> E2]; rewrite <- ?app_assoc in E2; cbn [app] in E2;
      destruct (Inner _ _ B IH _ _ _ _ B' E2) as [-> E3]; subst.
    + auto.
    + cbn in N1. congruence.
  - intros z tc c tl l tr r G B IH B2 IH2 t2 s2 r1 r2 S E N1 N2.
    assert (rskind (RsIf c l r) = rskind s2) as Ek.
    { rewrite <- (rsgram_kind _ _ r2 S), <- E. symmetry. apply rsgram_kind. eapply rs_else; eassumption. }
    destruct S as [s' tt' p' K' H'|s' tt' p' z' te' e' K' H' G'|b' s' z' te' e' K' G'|z' tc' c' tl' l' G' B'|z' tc' c' tl' l' tr' q' G' B' B2'|s' o' tl' l' K1' K2' B'];
      cbn in Ek; try discriminate; try (destruct b'; discriminate); cbn [app] in E; injection E as E; rewrite <- !app_assoc in E; cbn [app] in E;
      destruct (Split _ _ _ _ _ _ "{" _ _ ltac:(cbn; auto) G G' E) as [-> E2]; rewrite <- ?app_assoc in E2; cbn [app] in E2;
      destruct (Inner _ _ B IH _ _ _ _ B' E2) as [-> E3].
    + subst r2. cbn in N2. congruence.
    + injection E3 as E3. rewrite <- !app_assoc in E3. cbn [app] in E3. destruct (Inner _ _ B2 IH2 _ _ _ _ B2' E3) as [-> ->]. auto.
  - intros s o tl l K1 K2 B IH t2 s2 r1 r2 S E _ _.
    assert (rskind (RsIfSome s o l) = rskind s2) as Ek.
    { rewrite <- (rsgram_kind _ _ r2 S), <- E. symmetry. apply rsgram_kind. now constructor. }
    destruct S as [s' tt' p' K' H'|s' tt' p' z' te' e' K' H' G'|b' s' z' te' e' K' G'|z' tc' c' tl' l' G' B'|z' tc' c' tl' l' tr' q' G' B' B2'|s' o' tl' l' K1' K2' B'];
      cbn in Ek; try discriminate; try (destruct b'; discriminate). cbn [app] in E. injection E as <- <- E. rewrite <- !app_assoc in E. cbn [app] in E.
    destruct (Inner _ _ B IH _ _ _ _ B' E) as [-> ->]. auto.
  - intros e1 x1 t2 b2 e2 x2 r1 r2 T1 B T2 E. destruct B as [|ts s tb b S B].
    + cbn [app] in E. destruct (tail_split _ _ _ _ _ _ T1 T2 E) as [-> ->]. auto.
    + exfalso. cbn [app] in E. rewrite <- app_assoc in E. exact (tail_not_stmt _ _ _ _ _ _ S T1 (eq_sym E)).
  - intros ts s tb b S IHs B IHb e1 x1 t2 b2 e2 x2 r1 r2 T1 B' T2 E. destruct B' as [|ts' s' tb' b' S' B'].
    + exfalso. cbn [app] in E. rewrite <- app_assoc in E. exact (tail_not_stmt _ _ _ _ _ _ S T2 E).
    + rewrite <- !app_assoc in E. destruct (IHs _ _ _ _ S' E) as [-> E2]; [eapply rbgram_no_else; eassumption..|].
      destruct (IHb _ _ _ _ _ _ _ _ T1 B' T2 E2) as (-> & -> & ->). auto.
Qed.
Theorem rs_body_unique s b b' x x' : rs_body_reads s b x -> rs_body_reads s b' x' -> b = b' /\ x = x'.
Proof.
  intros (ts & te & L & B & T) (ts' & te' & L' & B' & T'). rewrite L in L'. injection L' as E.
  destruct (proj2 rs_stmt_unique _ _ B _ _ _ _ _ _ _ _ T B' T' E) as (-> & -> & _). auto.
Qed.

(** ** Characters that begin a token wherever they stand *)
Definition rbreaking (c : ascii) : bool :=
  negb (is_word_char c) && negb (Ascii.eqb c "." || Ascii.eqb c "+" || Ascii.eqb c "-") &&
  negb (existsb (fun p => Ascii.eqb (last_char p " ") c) rs_long).
Lemma rbreaking_breaks c : rbreaking c = true -> forall w, rs_extends w c = false.
Proof.
  unfold rbreaking. rewrite !andb_true_iff, !negb_true_iff, !orb_false_iff. intros ((W & (P1 & P2) & P3) & L) w.
  destruct w as [|a t]; [reflexivity|]. unfold rs_extends. rewrite W, P1, P2, P3. cbn [orb andb].
  assert (is_in (snoc (String a t) c) rs_long = false) as ->.
  { destruct (is_in _ _) eqn:E; [|reflexivity]. exfalso. unfold is_in in E. apply existsb_exists in E as (p & I & E).
    apply String.eqb_eq in E. rewrite <- not_true_iff_false in L. apply L. apply existsb_exists. exists p. split; [exact I|].
    rewrite <- E, snoc_last. apply Ascii.eqb_refl. }
  destruct (is_letter a); [reflexivity|]. destruct (is_digit a); reflexivity.
Qed.
Lemma rlex_break c s r : rbreaking c = true -> forall w, rs_lex_from w (s ++ String c r) = (rs_lex_from w s ++ rs_lex_from "" (String c r))%list.
Proof.
  intros B. pose proof (rbreaking_breaks _ B) as X. induction s as [|a s IH]; intros w.
  - cbn [append rs_lex_from]. rewrite (X w), (X ""). reflexivity.
  - cbn [append rs_lex_from]. destruct (rs_extends w a); [apply IH|]. now rewrite IH, app_assoc.
Qed.
Lemma rlex_from_space c w s : is_space c = true -> rbreaking c = true -> rs_lex_from w (String c s) = (rs_token w ++ rs_lex s)%list.
Proof. intros S B. cbn [rs_lex_from]. now rewrite (rbreaking_breaks _ B w), S. Qed.
Lemma rlex_sp a b : rs_lex (a ++ " " ++ b) = (rs_lex a ++ rs_lex b)%list.
Proof. unfold rs_lex. cbn [append]. now rewrite rlex_break by reflexivity. Qed.
Lemma rlex_nl a b : rs_lex (a ++ newline ++ b) = (rs_lex a ++ rs_lex b)%list.
Proof. unfold rs_lex, newline. cbn [append]. now rewrite rlex_break by reflexivity. Qed.
Lemma rlex_spaces k s : rs_lex (spaces k ++ s) = rs_lex s.
Proof. induction k as [|k IH]; [reflexivity|]. cbn [spaces append]. unfold rs_lex. rewrite rlex_from_space by reflexivity. exact IH. Qed.
Lemma rlex_indent k s : forall w, rs_lex_from w (indent_lines k s) = rs_lex_from w s.
Proof.
  induction s as [|c s IH]; intros w; [reflexivity|]. cbn [indent_lines].
  destruct (Ascii.eqb c (ascii_of_nat 10)) eqn:E; cbn [andb].
  - apply Ascii.eqb_eq in E. subst c. rewrite !rlex_from_space by reflexivity. f_equal.
    destruct s; cbn [negb]; [reflexivity|]. rewrite rlex_spaces. apply IH.
  - cbn [rs_lex_from]. rewrite !IH. reflexivity.
Qed.
Lemma rlex_block k l : rs_lex (spaces k ++ indent_lines k (join newline l)) = concat (map rs_lex l).
Proof.
  rewrite rlex_spaces. unfold rs_lex at 1. rewrite rlex_indent. fold (rs_lex (join newline l)).
  induction l as [|a l IH]; [reflexivity|]. destruct l as [|b l]; [cbn; now rewrite app_nil_r|].
  change (join newline (a :: b :: l)) with (a ++ newline ++ join newline (b :: l))%string.
  rewrite rlex_nl. cbn [map concat] in *. now rewrite IH.
Qed.
Lemma rlex_braces l rest : rs_lex (join_and_indent 2 ("{" ++ newline) (newline ++ "}") newline l ++ rest) =
  (TPunct "{" :: concat (map rs_lex l) ++ TPunct "}" :: rs_lex rest)%list.
Proof.
  unfold join_and_indent. rewrite !sapp_assoc. unfold rs_lex at 1. rewrite rlex_single by reflexivity. f_equal.
  change (newline ++ spaces 2 ++ indent_lines 2 (join newline l) ++ newline ++ "}" ++ rest)%string
    with ("" ++ newline ++ (spaces 2 ++ indent_lines 2 (join newline l) ++ newline ++ "}" ++ rest))%string.
  fold (rs_lex ("" ++ newline ++ (spaces 2 ++ indent_lines 2 (join newline l) ++ newline ++ "}" ++ rest))).
  rewrite rlex_nl. cbn [rs_lex rs_lex_from rs_token app]. rewrite <- sapp_assoc, rlex_nl, rlex_block. f_equal.
  unfold rs_lex. now rewrite rlex_single by reflexivity.
Qed.
Lemma rlex_name s : rs_name s -> rs_lex s = [TWord s].
Proof. intros I. unfold rs_lex. rewrite <- (sapp_nil s), rlex_word by (try exact I; exact Logic.I). cbn. now rewrite sapp_nil. Qed.
Lemma rlex_semi a : rs_lex (a ++ ";") = (rs_lex a ++ [TPunct ";"])%list.
Proof. unfold rs_lex. now rewrite rlex_break by reflexivity. Qed.
Lemma rlex_equals a rest : rs_lex (a ++ " = " ++ rest) = (rs_lex a ++ TPunct "=" :: rs_lex rest)%list.
Proof.
  change (a ++ " = " ++ rest)%string with (a ++ " " ++ ("=" ++ " " ++ rest))%string. now rewrite rlex_sp, rlex_sp.
Qed.
Lemma rlex_colon s rest : rs_name s -> rs_lex (s ++ ": " ++ rest) = (TWord s :: TPunct ":" :: rs_lex rest)%list.
Proof.
  intros N. change (s ++ ": " ++ rest)%string with (s ++ (":" ++ " " ++ rest))%string.
  destruct s as [|c t]; [destruct N|]. destruct N as (L & A & K).
  unfold rs_lex. rewrite rlex_one.
  - cbn [rs_token]. rewrite L. reflexivity.
  - apply rword_not_space. unfold is_word_char. now rewrite L.
  - now apply rword_token.
  - cbn [append rhalts rs_extends]. now rewrite L.
Qed.
Lemma rlex_star k rest : rs_name k -> rs_lex ("*" ++ k ++ rest) = (TPunct "*" :: rs_lex (k ++ rest))%list.
Proof.
  intros N. destruct k as [|c k]; [destruct N|]. destruct N as (L & _). apply (rlex_halt "*" (String c (k ++ rest))). cbn [rhalts].
  clear -L. destruct c as [[] [] [] [] [] [] [] []]; cbv in L |- *; auto; discriminate.
Qed.

(** ** Texts that do not begin with a selection *)
Lemma nonletter_head c s : is_letter c = false -> forall w, not_branch (rs_lex_from (String c w) s).
Proof.
  intros L. induction s as [|x s IH]; intros w; cbn [rs_lex_from].
  - cbn [rs_token]. rewrite L. destruct (is_digit c); exact Logic.I.
  - destruct (rs_extends (String c w) x); [apply (IH (snoc w x))|]. cbn [rs_token]. rewrite L. destruct (is_digit c); exact Logic.I.
Qed.
Lemma nonletter_text c s : is_letter c = false -> is_space c = false -> not_branch (rs_lex (String c s)).
Proof. intros L S. unfold rs_lex. cbn [rs_lex_from rs_extends]. rewrite S. cbn [rs_token app]. now apply nonletter_head. Qed.
Definition other_start (s : string) : Prop := forall rest, rstops' rest -> not_branch (rs_lex (s ++ rest)).
Lemma other_nonletter c s : is_letter c = false -> is_space c = false -> other_start (String c s).
Proof. intros L S rest _. cbn [append]. now apply nonletter_text. Qed.
Lemma other_name s : rs_name s -> other_start s.
Proof.
  intros N rest F. unfold rs_lex. rewrite rlex_word by assumption. cbn [not_branch].
  destruct s as [|c t]; [destruct N|]. destruct N as (_ & _ & K). intros E. rewrite E in K. discriminate.
Qed.
Lemma other_app s t : other_start s -> rstops' t -> t <> "" -> other_start (s ++ t).
Proof. intros O F N rest _. rewrite sapp_assoc. apply O. destruct t; [contradiction|exact F]. Qed.
Lemma digit_number s : rs_number s -> exists c t, s = String c t /\ is_letter c = false /\ is_space c = false.
Proof.
  destruct s as [|c t]; [intros []|]. intros (D & _). exists c, t. split; [reflexivity|]. split; [now apply rdigit_not_letter|].
  apply rword_not_space. unfold is_word_char. rewrite D. apply orb_true_r.
Qed.

Section Body.
  Variable ftext : load_src -> string.
  Variable custom : string -> bool.
  Variable borrows : string -> nat -> bool.
  Variable type : string -> string.
  Notation text := (rs_text ftext custom borrows).
  Notation fit := (rs_fits ftext borrows).
  Notation print := (rs_stmt ftext custom borrows type).
  Notation says := (rs_says ftext).
  Notation stmt_says := (rstmt_says ftext type).
  Notation stmt_fits := (rstmt_fits ftext borrows type).

  Lemma other_number s : rs_number s -> other_start s.
  Proof. intros D. destruct (digit_number _ D) as (c & t & -> & L & S). now apply other_nonletter. Qed.
  Lemma other_text e : fit e -> if_first e = false -> other_start (text e).
  Proof.
    induction e using ast_ind'; intros F I; inversion F; subst; cbn [rs_text if_first] in *; try discriminate I;
      try (apply other_name; assumption); try (apply other_nonletter; reflexivity).
    - destruct e; (apply other_app; [now apply IHe|reflexivity|discriminate]).
    - apply other_app; [now apply IHe|reflexivity|discriminate].
    - destruct (z <? 0)%Z eqn:Z.
      + assert (exists s, dec z = String "-" s) as (s & ->).
        { unfold dec. destruct z as [|p|p]; try discriminate Z. eexists; reflexivity. }
        now apply other_nonletter.
      + apply Z.ltb_ge in Z. apply other_number, rdec_number; [exact Z|reflexivity].
    - match goal with H : _ \/ _ |- _ => destruct H as [E|E]; rewrite E end.
      + now apply other_number.
      + now apply other_nonletter.
    - intros rest St. unfold rs_lex. destruct b; rewrite rlex_word_any by (try assumption; now split); cbn; discriminate.
    - intros rest _. destruct c; intro H; discriminate.
    - inversion H as [|x l' Px _]; subst. apply (other_app (text a) (" + " ++ join " + " (map text (b :: t)))); [now apply Px|reflexivity|discriminate].
    - inversion H as [|x l' Px _]; subst. apply (other_app (text a) (" * " ++ join " * " (map text (b :: t)))); [now apply Px|reflexivity|discriminate].
    - apply other_app; [now apply IHe1|reflexivity|discriminate].
    - destruct f; now apply other_nonletter.
    - apply other_app; [now apply other_name|reflexivity|discriminate].
  Qed.

  Definition rprinted (s : stmt) : Prop := exists s', rsgram (rs_lex (print s)) s' /\ stmt_says s s'.
  Lemma rprinted_all l : Forall rprinted l -> exists l', rbgram (concat (map rs_lex (map print l))) l' /\ Forall2 stmt_says l l'.
  Proof.
    induction 1 as [|s l (s' & G & S) _ (l' & B & F)]; [exists []; split; constructor|].
    exists (s' :: l')%list. split; [cbn; now constructor|now constructor].
  Qed.
  Lemma name_free s : rs_name s -> rs_free s.
  Proof. destruct s as [|c t]; [intros []|]. now intros (_ & _ & K). Qed.
  Lemma rstmt_printed s : stmt_fits s -> rprinted s.
  Proof.
    induction s using stmt_ind'; intros F; inversion F; subst; unfold rprinted; cbn [rs_stmt];
      repeat match goal with
      | H : rs_type_ok _ _ |- _ => destruct H as (p & Hp)
      | H : fit _ |- _ => destruct (rs_text_reads ftext custom borrows _ H) as (t & (z & G) & Sy); clear H
      | H : rs_name _ |- _ => pose proof (name_free _ H); revert H
      end; intros.
    - exists (RsLet n p (Some t)). split; [|now constructor].
      change ("let " ++ n ++ ": " ++ type n ++ " = " ++ text e ++ ";")%string
        with ("let" ++ " " ++ (n ++ ": " ++ (type n ++ " = " ++ (text e ++ ";"))))%string.
      rewrite rlex_sp, rlex_colon, rlex_equals, rlex_semi by assumption. now apply (rs_init n _ p z).
    - exists (RsLet n p None). split; [|now constructor].
      change ("let " ++ n ++ ": " ++ type n ++ ";")%string with ("let" ++ " " ++ (n ++ ": " ++ (type n ++ ";")))%string.
      rewrite rlex_sp, rlex_colon, rlex_semi by assumption. now apply rs_let.
    - exists (RsAssign false n t). split; [|now constructor].
      rewrite rlex_equals, rlex_semi, (rlex_name n) by assumption. now apply (rs_assign false n z).
    - exists (RsAssign true k t). split; [|now constructor].
      rewrite rlex_star by assumption. rewrite rlex_equals, rlex_semi, (rlex_name k) by assumption. now apply (rs_assign true k z).
    - assert (exists l', rbgram (concat (map rs_lex (map print l))) l' /\ Forall2 stmt_says l l') as (l' & Bl & Fl).
      { apply rprinted_all. rewrite Forall_forall in *. auto. }
      assert (exists r', rbgram (concat (map rs_lex (map print r))) r' /\ Forall2 stmt_says r r') as (r' & Br & Fr).
      { apply rprinted_all. rewrite Forall_forall in *. auto. }
      exists (RsIf t l' r'). split; [|now constructor].
      match goal with |- rsgram (rs_lex ("if " ++ ?x)%string) _ => change ("if " ++ x)%string with ("if" ++ " " ++ x)%string end.
      rewrite rlex_sp, rlex_sp, rlex_braces.
      destruct r as [|r0 r].
      + inversion Fr; subst. exact (rs_if z _ t _ l' G Bl).
      + assert (rs_lex (join_and_indent 2 (" else {" ++ newline) (newline ++ "}") newline (map print (r0 :: r))) =
                (TWord "else" :: TPunct "{" :: concat (map rs_lex (map print (r0 :: r))) ++ [TPunct "}"])%list) as ->.
        { change (join_and_indent 2 (" else {" ++ newline) (newline ++ "}") newline (map print (r0 :: r)))
            with (" else" ++ " " ++ join_and_indent 2 ("{" ++ newline) (newline ++ "}") newline (map print (r0 :: r)))%string.
          rewrite rlex_sp. rewrite <- (sapp_nil (join_and_indent 2 ("{" ++ newline) _ _ _)), rlex_braces. reflexivity. }
        exact (rs_else z _ t _ l' _ r' G Bl Br).
    - assert (exists l', rbgram (concat (map rs_lex (map print l))) l' /\ Forall2 stmt_says l l') as (l' & Bl & Fl).
      { apply rprinted_all. rewrite Forall_forall in *. auto. }
      exists (RsIfSome k k l'). split; [|now constructor].
      match goal with |- rsgram (rs_lex ("if let Some(" ++ k ++ ") = " ++ k ++ " " ++ ?x)%string) _ =>
        assert (rs_lex ("if let Some(" ++ k ++ ") = " ++ k ++ " " ++ x) =
          (TWord "if" :: TWord "let" :: TWord "Some" :: TPunct "(" :: TWord k :: TPunct ")" :: TPunct "=" :: TWord k :: rs_lex x)%list) as -> end.
      { match goal with |- rs_lex ("if let Some(" ++ k ++ ") = " ++ k ++ " " ++ ?x)%string = _ =>
          change ("if let Some(" ++ k ++ ") = " ++ k ++ " " ++ x)%string
            with ("if let Some" ++ String "(" (k ++ String ")" ("" ++ " = " ++ (k ++ " " ++ x))))%string end.
        unfold rs_lex at 1. rewrite rlex_break by reflexivity.
        match goal with |- context [rs_lex_from "" (String "(" ?r)] => change (String "(" r) with ("(" ++ r)%string; rewrite (rlex_single "(" r) by reflexivity end.
        rewrite rlex_break by reflexivity. fold (rs_lex k). rewrite (rlex_name k) by assumption.
        match goal with |- context [rs_lex_from "" (String ")" ?r)] => change (String ")" r) with (")" ++ r)%string; rewrite (rlex_single ")" r) by reflexivity; fold (rs_lex r) end.
        rewrite rlex_equals, rlex_sp, (rlex_name k) by assumption. reflexivity. }
      rewrite <- (sapp_nil (join_and_indent 2 ("{" ++ newline) _ _ _)), rlex_braces. now apply rs_some.
  Qed.
  Theorem rbody_printed l : rbody_fits ftext borrows type l ->
    exists b v, rs_body_reads (rs_body ftext custom borrows type l) b v /\ rbody_says ftext type l b v.
  Proof.
    assert (forall l, Forall stmt_fits l -> exists l', rbgram (concat (map rs_lex (map print l))) l' /\ Forall2 stmt_says l l') as All.
    { intros l' F. apply rprinted_all. rewrite Forall_forall in *. auto using rstmt_printed. }
    assert (forall l, rs_lex (rs_body ftext custom borrows type l) = (TPunct "{" :: concat (map rs_lex (map print l)) ++ [TPunct "}"])%list) as Lex.
    { intros l'. unfold rs_body. now rewrite <- (sapp_nil (join_and_indent 2 _ _ _ _)), rlex_braces. }
    intros F. inversion F as [l0 Fl|l0 e Fl Fe I]; subst.
    - destruct (All l Fl) as (b & B & S). exists b, None. split; [|now constructor].
      exists (concat (map rs_lex (map print l))), []. split; [apply Lex|]. split; [exact B|constructor].
    - destruct (All l0 Fl) as (b & B & S). destruct (rs_text_reads ftext custom borrows _ Fe) as (t & (z & G) & Sy).
      exists b, (Some t). split; [|now constructor].
      exists (concat (map rs_lex (map print l0))), (rs_lex (text e)). split; [|split; [exact B|]].
      + rewrite Lex, !map_app, concat_app. cbn. now rewrite app_nil_r, <- app_assoc.
      + apply (rt_some z); [exact G|]. pose proof (other_text e Fe I "" Logic.I) as O. now rewrite sapp_nil in O.
  Qed.
End Body.
