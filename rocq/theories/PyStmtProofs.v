(** The Python text of statements is read as these statements. *)
From Coq Require Import String Ascii List Arith ZArith Bool Lia.
From Verif Require Import Outcome IrModel CppSpec CppParse PySpec PyParse PlainSpec PlainLex AstModel AstSpec AstProofs AstTree StmtModel
  CppStmtModel CppStmtProofs PyCodeModel PyCodeSpec PyCodeProofs PyStmtSpec PyStmtModel PyBodySpec.
Import ListNotations.
Open Scope string_scope.
Open Scope nat_scope.

(** ** There is one way to read a body *)
Lemma tuple_stuck ts a b l e : pgram_args1 false ts (a :: b :: l) -> pgram 0 (TPunct "(" :: ts ++ [TPunct ")"])%list e -> False.
Proof.
  intros A G. assert (exists t1 t2, ts = (t1 ++ TPunct "," :: t2)%list /\ pgram 0 t1 a) as (t1 & t2 & -> & G1).
  { inversion A; subst. eauto. }
  apply (proj1 pparse_complete) in G, G1. specialize (G [] Logic.I).
  specialize (G1 (TPunct "," :: t2 ++ [TPunct ")"])%list (pfollow_end 0 "," _ (or_intror (or_intror eq_refl)))).
  destruct G as [k1 K1], G1 as [k2 K2]. rewrite <- app_assoc in K1. cbn [app] in K1.
  set (r := (t1 ++ TPunct "," :: t2 ++ [TPunct ")"])%list) in *.
  assert (forall k, k2 < k -> pprim k (TPunct "(" :: r) = None) as P6.
  { intros [|k] L; [reflexivity|]. cbn [pprim is_p String.eqb Ascii.eqb Bool.eqb]. now rewrite K2 by lia. }
  assert (forall k, 1 + k2 < k -> pparse k 5 (TPunct "(" :: r) = None) as P5.
  { intros [|k] L; [reflexivity|]. cbn [pparse]. now rewrite P6 by lia. }
  assert (forall k, 2 + k2 < k -> pparse k 4 (TPunct "(" :: r) = None) as P4.
  { intros [|k] L; [reflexivity|]. cbn [pparse]. now rewrite P5 by lia. }
  assert (forall k, 3 + k2 < k -> pparse k 3 (TPunct "(" :: r) = None) as P3.
  { intros [|k] L; [reflexivity|]. cbn. now rewrite P4 by lia. }
  assert (forall k, 4 + k2 < k -> pparse k 2 (TPunct "(" :: r) = None) as P2.
  { intros [|k] L; [reflexivity|]. cbn [pparse]. now rewrite P3 by lia. }
  assert (forall k, 5 + k2 < k -> pparse k 1 (TPunct "(" :: r) = None) as P1.
  { intros [|k] L; [reflexivity|]. cbn [pparse]. now rewrite P2 by lia. }
  assert (forall k, 6 + k2 < k -> pparse k 0 (TPunct "(" :: r) = None) as P0.
  { intros [|k] L; [reflexivity|]. cbn [pparse]. now rewrite P1 by lia. }
  specialize (K1 (7 + k1 + k2) ltac:(lia)). rewrite app_nil_r, P0 in K1 by lia. discriminate.
Qed.
Lemma none_stuck e : pgram 0 [TWord "None"] e -> False.
Proof.
  intros G. apply (proj1 pparse_complete) in G. specialize (G [] Logic.I). destruct G as [k K].
  specialize (K (9 + k) ltac:(lia)). discriminate K.
Qed.
Lemma args_unique ts l l' : pgram_args1 false ts l -> pgram_args1 false ts l' -> l = l'.
Proof.
  assert (forall l, pgram_args1 false ts l -> pgram 0 ([TWord "x"] ++ TPunct "[" :: ts ++ [TPunct "]"])%list (PSub (PId "x") l)) as H.
  { intros m A. apply (pgram_down 0 5); [lia|lia|]. apply pg_sub; [|assumption]. now apply pg_id. }
  intros A A'. pose proof (py_unambiguous _ _ _ (H _ A) (H _ A')) as E. now injection E.
Qed.
Lemma psimple_unique ts s s' : psimple ts s -> psimple ts s' -> s = s'.
Proof.
  intros H H'. destruct H as [s te e K G|s K|te e G|ts a b l A]; inversion H'; subst; try reflexivity;
    try match goal with K : py_free "return" |- _ => discriminate K end;
    try (exfalso; match goal with
      | G : pgram 0 [TWord "None"] _ |- _ => exact (none_stuck _ G)
      | A : pgram_args1 _ _ _, G : pgram 0 (TPunct "(" :: _) _ |- _ => exact (tuple_stuck _ _ _ _ _ A G)
      end).
  - f_equal. f_equal. eapply py_unambiguous; eassumption.
  - f_equal. eapply py_unambiguous; eassumption.
  - match goal with H : (_ ++ _)%list = (_ ++ _)%list |- _ => apply app_inj_tail in H as [-> _] end.
    match goal with H : pgram_args1 _ _ _ |- _ => pose proof (args_unique _ _ _ A H) as E end. now injection E as -> -> ->.
Qed.
Lemma psimple_first ts s : psimple ts s -> exists w t, ts = (TWord w :: t)%list /\ w <> "if" /\ w <> "else".
Proof. intros [s0 te e K G|s0 K|te e G|t a b l A]; do 2 eexists; (split; [reflexivity|]); split; intros E; try subst s0; discriminate. Qed.

(** Where a block ends. *)
Definition at_most (k : nat) (ls : list line) : Prop := match ls with [] => True | l :: _ => fst l = k end.
Lemma pblock_first k ls b : pblock k ls b -> at_most k ls.
Proof. now intros [ | | | ]. Qed.
Lemma pblock_deep k ls b : pblock k ls b -> Forall (fun l => k <= fst l) ls.
Proof.
  assert (forall k k1 ls, k < k1 -> Forall (fun l : line => k1 <= fst l) ls -> Forall (fun l => k <= fst l) ls) as W.
  { intros x y l L. apply Forall_impl. intros; lia. }
  induction 1; repeat (constructor || apply Forall_app || split); cbn; eauto.
Qed.
Lemma split_deep k (x x' y y' : list line) : Forall (fun l => k < fst l) x -> Forall (fun l => k < fst l) x' -> at_most k y -> at_most k y' ->
  (x ++ y)%list = (x' ++ y')%list -> x = x' /\ y = y'.
Proof.
  intros F. revert x'. induction F as [|l x L F IH]; intros x' F' A A' E; destruct F' as [|l' x' L' F']; cbn in E.
  - now split.
  - subst y. cbn in A. lia.
  - subst y'. cbn in A'. lia.
  - injection E as -> E. destruct (IH x' F' A A' E) as [-> ->]. now split.
Qed.
Lemma pblock_not_else k ls b : pblock k ls b -> forall k' t r, ls = ((k', TWord "else" :: t) :: r)%list -> False.
Proof.
  intros [k0|k0 ts s ls0 b0 S B|k0 k1 tc c li l ls0 b0 G L N B B0|k0 k1 k2 tc c li l lr r ls0 b0 G L N B L2 N2 B2 B0] k' t r0 E; try discriminate E.
  injection E as <- -> _. destruct (psimple_first _ _ S) as (w & t0 & E & _ & Ne). congruence.
Qed.
Lemma deeper k k1 ls b : k < k1 -> pblock k1 ls b -> Forall (fun l => k < fst l) ls.
Proof. intros L B. apply pblock_deep in B. revert B. apply Forall_impl. intros; lia. Qed.
Lemma same_start k k' ls b b' : ls <> [] -> pblock k ls b -> pblock k' ls b' -> k = k'.
Proof. intros N B B'. apply pblock_first in B, B'. destruct ls; [congruence|]. cbn in *. congruence. Qed.
Lemma pblock_unique k ls b : pblock k ls b -> forall b', pblock k ls b' -> b = b'.
Proof.
  induction 1 as [k|k ts s ls b S B IH|k k1 tc c li l ls b G L N B IHl B0 IH|k k1 k2 tc c li l lr r ls b G L N B IHl L2 N2 B2 IHr B0 IH]; intros b' Q.
  - inversion Q. reflexivity.
  - inversion Q; subst.
    + f_equal; [eapply psimple_unique; eassumption|auto].
    + destruct (psimple_first _ _ S) as (w & t & E & Ne & _). congruence.
    + destruct (psimple_first _ _ S) as (w & t & E & Ne & _). congruence.
  - inversion Q as [|? ts' s' ls' b2 S' B'|? k1' tc' c' li' l' ls' b2 G' L' N' B' B0'|? k1' k2' tc' c' li' l' lr' r' ls' b2 G' L' N' B' L2' N2' B2' B0']; subst.
    + destruct (psimple_first _ _ S') as (w & t & E & Ne & _). congruence.
    + apply app_inj_tail in H0 as [-> _]. rewrite (py_unambiguous _ _ _ G' G).
      destruct (split_deep k li' li ls' ls) as [-> ->]; auto; [now apply (deeper k k1' _ l')|now apply (deeper k k1 _ l)|now apply (pblock_first _ _ b2)|now apply (pblock_first _ _ b)|].
      rewrite <- (same_start k1 k1' _ _ _ N B B') in B'. now rewrite (IHl _ B'), (IH _ B0').
    + destruct (split_deep k li' li ((k, [TWord "else"; TPunct ":"]) :: lr' ++ ls')%list ls) as [-> E]; auto;
        [now apply (deeper k k1' _ l')|now apply (deeper k k1 _ l)|reflexivity|now apply (pblock_first _ _ b)|].
      exfalso. eapply pblock_not_else; [exact B0|]. symmetry. exact E.
  - inversion Q as [|? ts' s' ls' b2 S' B'|? k1' tc' c' li' l' ls' b2 G' L' N' B' B0'|? k1' k2' tc' c' li' l' lr' r' ls' b2 G' L' N' B' L2' N2' B2' B0']; subst.
    + destruct (psimple_first _ _ S') as (w & t & E & Ne & _). congruence.
    + destruct (split_deep k li' li ls' ((k, [TWord "else"; TPunct ":"]) :: lr ++ ls)%list) as [-> E]; auto;
        [now apply (deeper k k1' _ l')|now apply (deeper k k1 _ l)|now apply (pblock_first _ _ b2)|reflexivity|].
      exfalso. eapply pblock_not_else; [exact B0'|]. exact E.
    + apply app_inj_tail in H0 as [-> _]. rewrite (py_unambiguous _ _ _ G' G).
      destruct (split_deep k li' li ((k, [TWord "else"; TPunct ":"]) :: lr' ++ ls')%list ((k, [TWord "else"; TPunct ":"]) :: lr ++ ls)%list) as [-> E]; auto;
        [now apply (deeper k k1' _ l')|now apply (deeper k k1 _ l)|reflexivity|reflexivity|]. injection E as E.
      destruct (split_deep k lr' lr ls' ls) as [-> ->]; auto; [now apply (deeper k k2' _ r')|now apply (deeper k k2 _ r)|now apply (pblock_first _ _ b2)|now apply (pblock_first _ _ b)|].
      rewrite <- (same_start k1 k1' _ _ _ N B B') in B'. rewrite <- (same_start k2 k2' _ _ _ N2 B2 B2') in B2'.
      now rewrite (IHl _ B'), (IHr _ B2'), (IH _ B0').
Qed.
Theorem py_body_unique s b b' : py_body_reads s b -> py_body_reads s b' -> b = b'.
Proof.
  intros (N & k & _ & B) (N' & k' & _ & B'). destruct (py_lines s) as [|l ls] eqn:E.
  - inversion B. congruence.
  - assert (l :: ls <> [])%list as Nl by discriminate. rewrite <- (same_start k k' _ _ _ Nl B B') in B'. eapply pblock_unique; eassumption.
Qed.

(** ** Text without newlines and with its brackets closed *)
Fixpoint noline (s : string) : bool := match s with EmptyString => true | String c t => negb (is_newline c) && noline t end.
Fixpoint depthf (d : nat) (s : string) : nat := match s with EmptyString => d | String c t => depthf (depth_after d c) t end.
Definition flat (s : string) : Prop := noline s = true /\ forall d, depthf d s = d.
Lemma noline_app a b : noline (a ++ b) = noline a && noline b.
Proof. induction a as [|c a IH]; cbn; [reflexivity|]. now rewrite IH, andb_assoc. Qed.
Lemma depth_app a b : forall d, depthf d (a ++ b) = depthf (depthf d a) b.
Proof. induction a as [|c a IH]; intros d; cbn; auto. Qed.
Lemma flat_app a b : flat a -> flat b -> flat (a ++ b).
Proof. intros [A1 A2] [B1 B2]. split; [now rewrite noline_app, A1, B1|]. intros d. now rewrite depth_app, A2, B2. Qed.
Lemma flat_wrap o c a : (o = "(" /\ c = ")" \/ o = "[" /\ c = "]") -> flat a -> flat (o ++ a ++ c).
Proof.
  intros H [A1 A2]. destruct H as [[-> ->]|[-> ->]]; (split; [rewrite !noline_app, A1; reflexivity|]); intros d; rewrite !depth_app, A2; reflexivity.
Qed.
Definition mild (c : ascii) : bool := negb (is_newline c) && negb (opening c) && negb (closing c).
Lemma flat_mild s : all_chars mild s = true -> flat s.
Proof.
  induction s as [|c t IH]; intros H; [split; reflexivity|]. cbn in H. apply andb_true_iff in H as [H1 H2]. destruct (IH H2) as [I1 I2].
  unfold mild in H1. apply andb_true_iff in H1 as [H1 H3]. apply andb_true_iff in H1 as [H1 H4]. split; cbn; [now rewrite H1|].
  intros d. unfold depth_after. apply negb_true_iff in H3, H4. rewrite H4, H3. apply I2.
Qed.
Lemma flat_join sep l : flat sep -> Forall flat l -> flat (join sep l).
Proof.
  intros Hs F. unfold join. induction F as [|a l A F IH]; [split; reflexivity|]. cbn [String.concat]. destruct l; [assumption|].
  apply flat_app; [assumption|]. now apply flat_app.
Qed.
Lemma flat_name s : py_name s -> flat s.
Proof.
  destruct s as [|c t]; [intros []|]. intros (L & A & _). apply flat_mild. cbn. apply andb_true_iff. split.
  - clear -L. destruct c as [[] [] [] [] [] [] [] []]; cbv in L |- *; auto.
  - apply (all_weak is_word_char); [|assumption]. intros x X. clear -X. destruct x as [[] [] [] [] [] [] [] []]; cbv in X |- *; auto.
Qed.
Lemma number_mild t : forall w c, is_digit c = true -> py_one_token (String c w) t = true -> all_chars mild t = true.
Proof.
  induction t as [|x t IH]; intros w c D H; [reflexivity|]. cbn [py_one_token] in H. apply andb_true_iff in H as [H1 H2].
  cbn [all_chars]. apply andb_true_iff. split; [|exact (IH _ c D H2)].
  cbn [py_extends] in H1. rewrite (pdigit_not_letter c D), D in H1. cbn [orb] in H1. clear -H1.
  assert (py_word_char x || Ascii.eqb x "." || (Ascii.eqb x "+" || Ascii.eqb x "-") = true) as X.
  { apply orb_true_iff in H1 as [H1|H1]; [now rewrite H1|]. apply andb_true_iff in H1 as [H1 _]. rewrite H1. apply orb_true_r. }
  clear H1. destruct x as [[] [] [] [] [] [] [] []]; cbv in X |- *; auto.
Qed.
Lemma flat_number s : py_number s -> flat s.
Proof.
  destruct s as [|c t]; [intros []|]. intros (D & A). apply flat_mild. cbn. apply andb_true_iff. split; [|now apply (number_mild t "" c)].
  clear -D. destruct c as [[] [] [] [] [] [] [] []]; cbv in D |- *; auto.
Qed.
Lemma flat_dec z : flat (dec z).
Proof.
  destruct (Z_lt_dec z 0) as [L|L].
  - rewrite dec_neg by assumption. apply (flat_app "-"); [now apply flat_mild|]. apply flat_number, pdec_number. lia.
  - apply flat_number, pdec_number. lia.
Qed.
Lemma flat_cast T w a t : flat a -> flat (py_cast T w a t).
Proof.
  intros F. unfold py_cast. destruct F as [F1 F2]. destruct T, w, t; (split; [rewrite !noline_app, F1; reflexivity|]); intros d; rewrite !depth_app, F2; reflexivity.
Qed.

Section Flat.
  Variables (T : py_target) (w : py_width) (ftext : load_src -> string).
  Notation text := (py_text T w ftext).
  Notation fit := (py_fits T ftext).
  Ltac mild := now apply flat_mild.
  Lemma flat_args (h : string) l : flat h -> Forall flat l -> flat (h ++ "(" ++ join ", " l ++ ")").
  Proof. intros Fh F. apply flat_app; [assumption|]. apply (flat_wrap "(" ")"); [now left|]. apply flat_join; [mild|assumption]. Qed.
  Lemma flats l : Forall (fun e => fit e -> flat (text e)) l -> Forall fit l -> Forall flat (map text l).
  Proof.
    intros H F. apply Forall_forall. intros x I. apply in_map_iff in I as (e & <- & I). rewrite Forall_forall in H, F. auto.
  Qed.
  Lemma text_flat : forall e, fit e -> flat (text e).
  Proof.
    induction e as [s|s m|a r c IH|a f IH|z|l|b|c|l IH|l IH|a b IHa IHb|a IH|r a b IHa IHb|c a b IHc IHa IHb|t a IH|f l IH|f b l IH|a IH]
      using ast_ind'; intros F; inversion F; subst; clear F; cbn [py_text].
    - now apply flat_name.
    - now apply flat_name.
    - apply flat_app; [auto|].
      replace ("[" ++ dec_nat r ++ ", " ++ dec_nat c ++ "]") with ("[" ++ (dec_nat r ++ ", " ++ dec_nat c) ++ "]") by now rewrite !sapp_assoc.
      apply flat_wrap; [now right|]. repeat apply flat_app; try apply flat_dec. mild.
    - repeat apply flat_app; [auto|mild|now apply flat_name].
    - apply flat_dec.
    - assert (flat (ftext l)) as Fl.
      { match goal with H : _ \/ _ |- _ => destruct H as [->| ->] end; [now apply flat_number|]. apply (flat_app "-"); [mild|now apply flat_number]. }
      destruct T; [now apply flat_cast|exact Fl|now apply flat_cast].
    - destruct b; mild.
    - assert (flat (module_string T ++ "." ++ match c with SEuler => "e" | SPi => "pi" end)) as Fc by (destruct T, c; mild).
      destruct T; [now apply flat_cast|exact Fc|now apply flat_cast].
    - apply flat_join; [mild|]. apply flats; [assumption|now constructor].
    - apply flat_join; [mild|]. apply flats; [assumption|now constructor].
    - repeat apply flat_app; auto. mild.
    - apply (flat_app "-"); [mild|auto].
    - repeat apply flat_app; auto; [mild|destruct r; mild|mild].
    - replace (module_string T ++ ".where(" ++ text c ++ ", " ++ text a ++ ", " ++ text b ++ ")")
        with ((module_string T ++ ".where") ++ "(" ++ join ", " [text c; text a; text b] ++ ")")
        by (unfold join; cbn [String.concat]; rewrite !sapp_assoc; reflexivity).
      apply flat_args; [destruct T; mild|]. repeat apply Forall_cons; auto.
    - apply flat_cast. auto.
    - replace (module_string T ++ "." ++ py_function f ++ "(" ++ join ", " (map text l) ++ ")")
        with ((module_string T ++ "." ++ py_function f) ++ "(" ++ join ", " (map text l) ++ ")") by now rewrite !sapp_assoc.
      apply flat_args; [destruct T, f; mild|]. now apply flats.
    - apply flat_args; [now apply flat_name|]. now apply flats.
    - apply (flat_wrap "(" ")"); [now left|auto].
  Qed.
End Flat.

(** ** Lines *)
Lemma logical_noline f : forall d cur rest, noline f = true -> py_logical d cur (f ++ rest) = py_logical (depthf d f) (cur ++ f) rest.
Proof.
  induction f as [|c f IH]; intros d cur rest H; cbn in H |- *; [now rewrite sapp_nil|]. apply andb_true_iff in H as [H1 H2].
  apply negb_true_iff in H1. rewrite H1. cbn [andb]. rewrite IH by assumption. unfold snoc. now rewrite sapp_assoc.
Qed.
Lemma logical_flat f rest : flat f -> py_logical 0 "" (f ++ newline ++ rest) = (f :: py_logical 0 "" rest)%list.
Proof. intros [H1 H2]. rewrite logical_noline, H2 by assumption. reflexivity. Qed.
Lemma concat_more sep a l : l <> [] -> String.concat sep (a :: l) = a ++ sep ++ String.concat sep l.
Proof. destruct l; [congruence|reflexivity]. Qed.
Lemma concat_two sep l l' : l <> [] -> l' <> [] -> String.concat sep (l ++ l') = String.concat sep l ++ sep ++ String.concat sep l'.
Proof.
  intros N N'. induction l as [|a l IH]; [congruence|]. destruct l as [|b l].
  - cbn [app]. now rewrite concat_more.
  - change ((a :: b :: l) ++ l')%list with (a :: (b :: l) ++ l')%list.
    rewrite concat_more by discriminate. rewrite IH by discriminate. rewrite (concat_more sep a (b :: l)) by discriminate. now rewrite !sapp_assoc.
Qed.
Lemma logical_join fs tail : Forall flat fs -> fs <> [] -> py_logical 0 "" (String.concat newline fs ++ newline ++ tail) = (fs ++ py_logical 0 "" tail)%list.
Proof.
  induction 1 as [|f fs F Fs IH]; [congruence|]. intros _. destruct fs as [|f2 fs].
  - cbn [String.concat app]. now apply logical_flat.
  - rewrite concat_more by discriminate. rewrite !sapp_assoc, logical_flat by assumption. rewrite IH by discriminate. reflexivity.
Qed.

Definition lines_of (fs : list string) : list line := filter filled (map line_of fs).
Definition shift (k : nat) (l : line) : line := (k + fst l, snd l).
Lemma lex_spaces k s : py_lex (spaces k ++ s) = py_lex s.
Proof. induction k as [|k IH]; [reflexivity|]. exact IH. Qed.
Lemma indent_spaces k s : py_indent (spaces k ++ s) = k + py_indent s.
Proof. induction k as [|k IH]; [reflexivity|]. cbn. now rewrite IH. Qed.
Lemma line_spaces k s : line_of (spaces k ++ s) = shift k (line_of s).
Proof. unfold line_of, shift. cbn [fst snd]. now rewrite lex_spaces, indent_spaces. Qed.
Lemma flat_spaces k : flat (spaces k).
Proof. apply flat_mild. induction k as [|k IH]; [reflexivity|]. exact IH. Qed.

(** The text consists of these lines. *)
Definition lays (s : string) (ls : list line) : Prop :=
  exists fs, s = String.concat newline fs /\ fs <> [] /\ Forall flat fs /\ lines_of fs = ls.
Lemma lays_line f : flat f -> lays f (lines_of [f]).
Proof. intros F. exists [f]. repeat split; [discriminate|]. now constructor. Qed.
Lemma lays_app a b la lb : lays a la -> lays b lb -> lays (a ++ newline ++ b) (la ++ lb).
Proof.
  intros (fa & -> & Na & Fa & <-) (fb & -> & Nb & Fb & <-). exists (fa ++ fb)%list. split; [now rewrite concat_two|].
  split; [now destruct fa|]. split; [now apply Forall_app|]. unfold lines_of. now rewrite map_app, filter_app.
Qed.
Lemma lays_join l ls : l <> [] -> Forall2 lays l ls -> lays (join newline l) (List.concat ls).
Proof.
  unfold join. intros N H. induction H as [|a la l ls Ha H IH]; [congruence|]. destruct l as [|b l].
  - inversion H; subst. cbn. now rewrite app_nil_r.
  - rewrite concat_more by discriminate. cbn [List.concat]. apply lays_app; [assumption|]. apply IH. discriminate.
Qed.
Lemma indent_noline k f rest : noline f = true -> indent_lines k (f ++ rest) = f ++ indent_lines k rest.
Proof.
  induction f as [|c f IH]; intros H; [reflexivity|]. cbn [noline append indent_lines] in H |- *. apply andb_true_iff in H as [H1 H2]. apply negb_true_iff in H1.
  unfold is_newline in H1. rewrite H1. cbn [andb]. now rewrite IH.
Qed.
Lemma indent_noline' k f : noline f = true -> indent_lines k f = f.
Proof. intros H. rewrite <- (sapp_nil f) at 1. rewrite indent_noline by assumption. apply sapp_nil. Qed.
Lemma indent_newline k rest : rest <> "" -> indent_lines k (newline ++ rest) = newline ++ spaces k ++ indent_lines k rest.
Proof. destruct rest; [congruence|reflexivity]. Qed.
Lemma concat_empty fs : fs <> [] -> String.concat newline fs = "" -> fs = [""].
Proof.
  destruct fs as [|a [|b fs]]; [congruence| |]; intros _.
  - cbn. now intros ->.
  - rewrite concat_more by discriminate. destruct a; discriminate.
Qed.
Lemma indent_concat k fs : fs <> [] -> Forall flat fs -> exists gs, spaces k ++ indent_lines k (String.concat newline fs) = String.concat newline gs /\
  Forall2 (fun f g => g = spaces k ++ f \/ f = "" /\ g = "") fs gs.
Proof.
  intros N F. induction F as [|f fs F Fs IH]; [congruence|]. destruct fs as [|f2 fs].
  - exists [spaces k ++ f]. cbn [String.concat]. split; [|constructor; [now left|constructor]]. now rewrite indent_noline' by apply F.
  - destruct (IH ltac:(discriminate)) as (gs & E & H). rewrite concat_more by discriminate. rewrite indent_noline by apply F.
    destruct (string_dec (String.concat newline (f2 :: fs)) "") as [Em|Ne].
    + pose proof (concat_empty (f2 :: fs) ltac:(discriminate) Em) as Q. rewrite Em. injection Q as -> ->. exists [spaces k ++ f; ""].
      split; [cbn [String.concat indent_lines]; now rewrite sapp_assoc|]. constructor; [now left|]. constructor; [now right|constructor].
    + rewrite indent_newline by assumption. rewrite E. exists (cons (spaces k ++ f) gs). split; [|constructor; [now left|exact H]].
      rewrite concat_more; [now rewrite !sapp_assoc|]. inversion H; discriminate.
Qed.
Lemma lays_indent k s ls : lays s ls -> lays (spaces k ++ indent_lines k s) (map (shift k) ls).
Proof.
  intros (fs & -> & N & F & <-). destruct (indent_concat k fs N F) as (gs & E & H). exists gs. split; [exact E|].
  split; [destruct H; [congruence|discriminate]|]. clear E N. induction H as [|f g fs gs Q H IH]; [split; [constructor|reflexivity]|].
  inversion F as [|? ? Ff Ffs]; subst. destruct (IH Ffs) as [I1 I2]. split.
  - constructor; [|assumption]. destruct Q as [->|[-> ->]]; [apply flat_app; [apply flat_spaces|assumption]|now apply flat_mild].
  - unfold lines_of in *. cbn [map filter]. destruct Q as [->|[-> ->]].
    + rewrite line_spaces. change (filled (shift k (line_of f))) with (filled (line_of f)).
      destruct (filled (line_of f)); cbn [map]; [now rewrite I2|exact I2].
    + exact I2.
Qed.

(** ** Tokens of lines *)
Definition apart (c : ascii) : Prop := forall w, py_extends w c = false.
Lemma lex_apart c rest : apart c -> forall s w, py_lex_from w (s ++ String c rest) = (py_lex_from w s ++ py_lex (String c rest))%list.
Proof.
  intros A. unfold py_lex. induction s as [|x s IH]; intros w.
  - cbn [append py_lex_from]. now rewrite !A.
  - cbn [append py_lex_from]. destruct (py_extends w x); [apply IH|]. now rewrite IH, app_assoc.
Qed.
Lemma apart_some c : In c [":"; ","; ")"; ascii_of_nat 10]%char -> apart c.
Proof.
  intros I w. destruct w as [|a t]; [reflexivity|].
  assert (is_in (snoc (String a t) c) py_long = false) as L.
  { apply not_true_is_false. intros H. apply CppParse.is_in_In in H. unfold snoc in H.
    cbn in I. repeat destruct I as [I|I]; try contradiction; subst c;
    cbn [py_long In append] in H; repeat (destruct H as [H|H]; [destruct t as [|? [|? [|? ?]]]; cbn in H; discriminate H|]); exact H. }
  cbn [py_extends]. rewrite L. cbn in I. repeat destruct I as [I|I]; try contradiction; subst c; (destruct (py_letter a); [reflexivity|]);
    (match goal with |- (if ?b then _ else _) = _ => destruct b end; [reflexivity|]); destruct (Ascii.eqb a "."), t; reflexivity.
Qed.
Lemma word_start s r : py_name s -> py_indent (s ++ r) = 0.
Proof.
  destruct s as [|c t]; [intros []|]. intros (L & _). cbn [append py_indent]. replace (Ascii.eqb c " ") with false; [reflexivity|].
  clear -L. destruct c as [[] [] [] [] [] [] [] []]; cbv in L |- *; auto; discriminate.
Qed.
Lemma line_assign n r : py_name n -> lines_of [n ++ " = " ++ r] = [(0, TWord n :: TPunct "=" :: py_lex r)].
Proof.
  intros N. unfold lines_of. cbn [map]. unfold line_of. rewrite word_start by assumption.
  replace (py_lex (n ++ " = " ++ r)) with (TWord n :: TPunct "=" :: py_lex r); [reflexivity|]. symmetry. unfold py_lex.
  rewrite plex_word by (now apply py_name_identifier || exact Logic.I || reflexivity). reflexivity.
Qed.
Lemma line_if s : lines_of ["if " ++ s ++ ":"] = [(0, TWord "if" :: py_lex s ++ [TPunct ":"])%list].
Proof.
  unfold lines_of. cbn [map]. unfold line_of.
  replace (py_lex ("if " ++ s ++ ":")) with (TWord "if" :: py_lex s ++ [TPunct ":"])%list; [reflexivity|].
  change (py_lex ("if " ++ s ++ ":")) with (TWord "if" :: py_lex (s ++ ":"))%list. f_equal. symmetry.
  apply (lex_apart ":" "" (apart_some ":" (or_introl eq_refl)) s "").
Qed.
Lemma compute_name k : py_name k -> py_name ("compute_" ++ k).
Proof.
  destruct k as [|c t]; [intros []|]. intros (L & A & _). split; [reflexivity|]. split; [|reflexivity].
  cbn. rewrite A. unfold is_word_char. now rewrite L.
Qed.
Lemma name_reads s : py_name s -> py_reads s (PId s).
Proof. intros N. apply written_reads, (written_down 0 5); [lia|lia|]. now apply written_name, py_name_identifier. Qed.
Lemma name_free s : py_name s -> py_free s.
Proof. destruct s; [intros []|]. now intros (_ & _ & K). Qed.

(** ** Statements *)
Section Printed.
  Variables (T : py_target) (w : py_width) (ftext : load_src -> string).
  Variable indent : nat.
  Hypothesis In0 : 0 < indent.
  Notation text := (py_text T w ftext).
  Notation fit := (py_fits T ftext).
  Notation says := (pstmt_says T w ftext).

  (** Lines that may stand in any block, in front of others. *)
  Definition opens (ls : list line) (b : list pstmt) : Prop :=
    forall k ls' b', pblock k ls' b' -> pblock k (map (shift k) ls ++ ls')%list (b ++ b')%list.
  Definition printed (s : stmt) (txt : string) : Prop :=
    exists ls s', lays txt ls /\ ls <> [] /\ says s s' /\ opens ls [s'].
  Definition all_printed (l : list stmt) : Prop :=
    exists txts lss b, py_stmts T w ftext indent l = Ok txts /\ Forall2 lays txts lss /\ Forall2 says l b /\ opens (List.concat lss) b /\
      (l <> [] -> txts <> [] /\ List.concat lss <> []).

  Lemma opens_alone ls b k : opens ls b -> pblock k (map (shift k) ls) b.
  Proof. intros O. specialize (O k [] [] (pb_nil k)). now rewrite !app_nil_r in O. Qed.
  Lemma shift_shift k k' ls : map (shift k) (map (shift k') ls) = map (shift (k + k')) ls.
  Proof. rewrite map_map. apply map_ext. intros [n ts]. unfold shift. cbn. now rewrite Nat.add_assoc. Qed.
  Lemma stmts_printed l : Forall (fun s => pstmt_fits T ftext s -> exists txt, py_stmt T w ftext indent s = Ok txt /\ printed s txt) l ->
    Forall (pstmt_fits T ftext) l -> all_printed l.
  Proof.
    intros H F. induction H as [|s l Hs H IH].
    - exists [], [], []. repeat split; try constructor; try congruence. intros k ls' b' B. exact B.
    - inversion F as [|? ? Fs Fl]; subst. destruct (Hs Fs) as (txt & E & ls & s' & L & N & S & O).
      destruct (IH Fl) as (txts & lss & b & El & Ll & Sl & Ol & Nl). exists (txt :: txts), (ls :: lss), (s' :: b).
      split; [cbn; now rewrite E, El|]. split; [now constructor|]. split; [now constructor|]. split.
      + intros k ls' b' B. cbn [List.concat]. rewrite map_app, <- app_assoc. exact (O k _ _ (Ol k _ _ B)).
      + intros _. split; [discriminate|]. cbn. now destruct ls.
  Qed.
  Lemma branch_text c l r : py_stmt T w ftext indent (SBranch c l r) =
    (let* a := py_stmts T w ftext indent l in let* b := py_stmts T w ftext indent r in
     Ok ("if " ++ text c ++ join_and_indent indent (":" ++ newline) newline newline a ++
         match r with [] => "" | _ => "else" ++ join_and_indent indent (":" ++ newline) "" newline b end))%outcome.
  Proof. reflexivity. Qed.
  Lemma optional_text k l : py_stmt T w ftext indent (SOptional k l) =
    (let* a := py_stmts T w ftext indent l in
     Ok ("if compute_" ++ k ++ ":" ++ join_and_indent indent newline newline newline a ++ "else:" ++ newline ++ spaces indent ++ k ++ " = None"))%outcome.
  Proof. reflexivity. Qed.
  Lemma opens_simple ts s : psimple ts s -> opens [(0, ts)] [s].
  Proof. intros P k ls' b' B. cbn. unfold shift. cbn. rewrite Nat.add_0_r. now apply pb_simple. Qed.
  Lemma expression e : fit e -> exists t, pgram 0 (py_lex (text e)) t /\ py_says T w ftext e t /\ flat (text e).
  Proof. intros F. destruct (py_text_reads T w ftext e F) as (t & R & M). exists t. split; [exact R|]. split; [exact M|]. now apply text_flat. Qed.
  Lemma flat_assign n r : py_name n -> flat r -> flat (n ++ " = " ++ r).
  Proof. intros N F. apply flat_app; [now apply flat_name|]. apply flat_app; [now apply flat_mild|assumption]. Qed.
  Lemma lays_assign n r : py_name n -> flat r -> lays (n ++ " = " ++ r) [(0, TWord n :: TPunct "=" :: py_lex r)].
  Proof. intros N F. rewrite <- line_assign by assumption. apply lays_line. now apply flat_assign. Qed.
  Lemma assign_printed s n e s' : py_name n -> fit e -> (forall t, py_says T w ftext e t -> says s (s' t)) -> (forall t, s' t = PsAssign n (Some t)) ->
    printed s (n ++ " = " ++ text e).
  Proof.
    intros N F S Es. destruct (expression e F) as (t & G & Sy & Fl). exists [(0, TWord n :: TPunct "=" :: py_lex (text e))], (s' t).
    split; [now apply lays_assign|]. split; [discriminate|]. split; [now apply S|]. apply opens_simple. rewrite Es. apply ps_assign; [now apply name_free|assumption].
  Qed.
  Lemma opens_if tc c li l : pgram 0 tc c -> li <> [] -> opens li l ->
    opens ((0, TWord "if" :: tc ++ [TPunct ":"]) :: map (shift indent) li)%list [PsIf c l []].
  Proof.
    intros G N O k ls' b' B. cbn [map app]. unfold shift at 1. cbn [fst snd]. rewrite Nat.add_0_r, shift_shift.
    apply (pb_if k (k + indent)); [assumption|lia|now destruct li|now apply opens_alone|assumption].
  Qed.
  Lemma opens_else tc c li l lr r : pgram 0 tc c -> li <> [] -> opens li l -> lr <> [] -> opens lr r ->
    opens ((0, TWord "if" :: tc ++ [TPunct ":"]) :: map (shift indent) li ++ (0, [TWord "else"; TPunct ":"]) :: map (shift indent) lr)%list [PsIf c l r].
  Proof.
    intros G N O N2 O2 k ls' b' B. cbn [map app]. rewrite map_app. cbn [map]. rewrite !shift_shift, <- app_assoc. cbn [app].
    assert (forall x, shift k (0, x) = (k, x)) as Z by (intros; unfold shift; cbn; now rewrite Nat.add_0_r). rewrite !Z.
    apply (pb_else k (k + indent) (k + indent)); [assumption|lia|now destruct li|now apply opens_alone|lia|now destruct lr|now apply opens_alone|assumption].
  Qed.

  Theorem stmt_printed s : pstmt_fits T ftext s -> exists txt, py_stmt T w ftext indent s = Ok txt /\ printed s txt.
  Proof.
    induction s as [n o|n e|k e|e|c l r IHl IHr|k l IHl] using stmt_ind'; intros F; inversion F; subst.
    - eexists. split; [reflexivity|]. apply (assign_printed _ n e (fun t => PsAssign n (Some t))); auto. intros. now constructor.
    - eexists. split; [reflexivity|]. exists [(0, [TWord n; TPunct "="; TWord "None"])], (PsAssign n None).
      split; [apply (lays_assign n "None"); [assumption|now apply flat_mild]|]. split; [discriminate|]. split; [constructor|].
      apply opens_simple, ps_none. now apply name_free.
    - eexists. split; [reflexivity|]. apply (assign_printed _ n e (fun t => PsAssign n (Some t))); auto. intros. now constructor.
    - eexists. split; [reflexivity|]. apply (assign_printed _ k e (fun t => PsAssign k (Some t))); auto. intros. now constructor.
    - (* branch *)
      destruct (stmts_printed l IHl ltac:(assumption)) as (ta & la & b & Ea & La & Sa & Oa & Na).
      destruct (stmts_printed r IHr ltac:(assumption)) as (tb & lb & b2 & Eb & Lb & Sb & Ob & Nb).
      destruct (expression c ltac:(assumption)) as (t & G & Sy & Fl). rewrite branch_text, Ea, Eb. cbn [bind]. eexists. split; [reflexivity|].
      destruct (Na ltac:(assumption)) as [N1 N2].
      assert (lays ("if " ++ text c ++ ":") [(0, TWord "if" :: py_lex (text c) ++ [TPunct ":"])%list]) as L1.
      { rewrite <- line_if. apply lays_line. apply flat_app; [now apply flat_mild|]. apply flat_app; [assumption|now apply flat_mild]. }
      pose proof (lays_indent indent _ _ (lays_join ta la N1 La)) as L2.
      destruct r as [|x r].
      + exists ((0, TWord "if" :: py_lex (text c) ++ [TPunct ":"]) :: map (shift indent) (List.concat la))%list, (PsIf t b []).
        split; [|split; [discriminate|split; [|now apply opens_if]]].
        * pose proof (lays_app _ _ _ _ L1 (lays_app _ _ _ _ L2 (lays_line "" (flat_mild "" eq_refl)))) as L. cbn [lines_of map filter filled line_of snd app] in L.
          rewrite app_nil_r in L. unfold join_and_indent. rewrite !sapp_assoc in *. exact L.
        * inversion Sb; subst. now constructor.
      + destruct (Nb ltac:(discriminate)) as [N3 N4]. pose proof (lays_indent indent _ _ (lays_join tb lb N3 Lb)) as L3.
        exists ((0, TWord "if" :: py_lex (text c) ++ [TPunct ":"]) :: map (shift indent) (List.concat la) ++ (0, [TWord "else"; TPunct ":"]) :: map (shift indent) (List.concat lb))%list, (PsIf t b b2).
        split; [|split; [discriminate|split; [now constructor|now apply opens_else]]].
        pose proof (lays_app _ _ _ _ L1 (lays_app _ _ _ _ L2 (lays_app _ _ _ _ (lays_line "else:" (flat_mild "else:" eq_refl)) L3))) as L.
        unfold join_and_indent. rewrite !sapp_assoc in *. rewrite (sapp_nil (indent_lines indent (join newline tb))). exact L.
    - (* optional *)
      destruct (stmts_printed l IHl ltac:(assumption)) as (ta & la & b & Ea & La & Sa & Oa & Na).
      rewrite optional_text, Ea. cbn [bind]. eexists. split; [reflexivity|]. destruct (Na ltac:(assumption)) as [N1 N2].
      pose proof (compute_name k ltac:(assumption)) as Nk.
      assert (lays ("if " ++ ("compute_" ++ k) ++ ":") [(0, TWord "if" :: py_lex ("compute_" ++ k) ++ [TPunct ":"])%list]) as L1.
      { rewrite <- line_if. apply lays_line. apply flat_app; [now apply flat_mild|]. apply flat_app; [now apply flat_name|now apply flat_mild]. }
      pose proof (lays_indent indent _ _ (lays_join ta la N1 La)) as L2.
      pose proof (lays_indent indent _ _ (lays_assign k "None" ltac:(assumption) (flat_mild "None" eq_refl))) as L3.
      rewrite (indent_noline' indent (k ++ " = " ++ "None")) in L3 by (apply (flat_assign k "None"); [assumption|now apply flat_mild]).
      exists ((0, TWord "if" :: py_lex ("compute_" ++ k) ++ [TPunct ":"]) :: map (shift indent) (List.concat la) ++ (0, [TWord "else"; TPunct ":"]) ::
        map (shift indent) [(0, [TWord k; TPunct "="; TWord "None"])])%list, (PsIf (PId ("compute_" ++ k)) b [PsAssign k None]).
      split; [|split; [discriminate|split; [now constructor|]]].
      + pose proof (lays_app _ _ _ _ L1 (lays_app _ _ _ _ L2 (lays_app _ _ _ _ (lays_line "else:" (flat_mild "else:" eq_refl)) L3))) as L.
        unfold join_and_indent. rewrite !sapp_assoc in *. exact L.
      + apply opens_else; auto; [now apply name_reads|discriminate|]. apply opens_simple, ps_none. now apply name_free.
  Qed.

  (** ** What is returned *)
  Definition item (s : string) (t : pexp) : Prop := py_reads s t /\ flat s.
  Lemma item_filled s t : item s t -> s <> "".
  Proof.
    intros [R _] ->. apply (proj1 pparse_complete) in R. specialize (R [] Logic.I). destruct R as [k K].
    specialize (K (9 + k) ltac:(lia)). discriminate K.
  Qed.
  Definition deep (s : string) : Prop := forall cur rest, py_logical 1 cur (s ++ rest) = py_logical 1 (cur ++ s) rest.
  Lemma deep_app a b : deep a -> deep b -> deep (a ++ b).
  Proof. intros A B cur rest. now rewrite sapp_assoc, A, B, sapp_assoc. Qed.
  Lemma deep_flat a : flat a -> deep a.
  Proof. intros [H1 H2] cur rest. now rewrite logical_noline, H2. Qed.
  Lemma deep_newline : deep newline.
  Proof. intros cur rest. reflexivity. Qed.
  Lemma logical_close cur : py_logical 1 cur ")" = [cur ++ ")"].
  Proof. reflexivity. Qed.
  Lemma items_text k l ts : Forall2 item l ts -> l <> [] ->
    let I := indent_lines k (join ("," ++ newline) l) in deep I /\ I <> "" /\ pgram_args1 false (py_lex I) ts.
  Proof.
    unfold join. intros H. induction H as [|a t l ts A H IH]; [congruence|]. intros _.
    destruct l as [|b l].
    - inversion H; subst. cbn [String.concat]. destruct A as [R F]. cbn zeta. rewrite indent_noline' by apply F.
      split; [now apply deep_flat|]. split; [exact (item_filled a t (conj R F))|]. now apply pa_one.
    - destruct (IH ltac:(discriminate)) as (I1 & I2 & I3). rewrite concat_more by discriminate. cbn zeta in *.
      pose proof (item_filled _ _ A) as Na. destruct A as [R F].
      set (C := String.concat ("," ++ newline) (b :: l)) in *.
      assert (C <> "") as Nc by (intros Q; now rewrite Q in I2).
      rewrite indent_noline by apply F. rewrite sapp_assoc, (indent_noline k "," (newline ++ C)) by reflexivity. rewrite indent_newline by assumption.
      split; [|split].
      + repeat apply deep_app; try exact I1; try apply deep_newline; apply deep_flat; [assumption|now apply flat_mild|apply flat_spaces].
      + now destruct a.
      + change ("," ++ newline ++ spaces k ++ indent_lines k C) with (String "," (newline ++ spaces k ++ indent_lines k C)).
        unfold py_lex. rewrite (lex_apart "," (newline ++ spaces k ++ indent_lines k C) (apart_some "," (or_intror (or_introl eq_refl))) a "").
        change (py_lex (String "," (newline ++ spaces k ++ indent_lines k C))) with (TPunct "," :: py_lex (spaces k ++ indent_lines k C))%list.
        rewrite lex_spaces. now apply pa_more.
  Qed.
  Lemma return_line l ts : Forall2 item l ts ->
    exists b, opens (map (fun x => (0, x)) b) (preturn ts) /\ lines_of (py_logical 0 "" (py_return indent l)) = map (fun x => (indent, x)) b.
  Proof.
    intros H. destruct H as [|a t l ts A H].
    - exists []. split; [|reflexivity]. intros k ls' b' B. exact B.
    - destruct l as [|b l].
      + inversion H; subst. destruct A as [R F]. exists [TWord "return" :: py_lex a]. split; [apply opens_simple; now apply ps_return|].
        cbn [py_return]. assert (flat (spaces indent ++ "return " ++ a)) as [F1 F2].
        { apply flat_app; [apply flat_spaces|]. apply flat_app; [now apply flat_mild|assumption]. }
        rewrite <- (sapp_nil (spaces indent ++ "return " ++ a)). rewrite logical_noline, F2 by assumption. cbn [py_logical append lines_of map].
        unfold lines_of. cbn [map]. rewrite line_spaces. unfold shift.
        change (line_of ("return " ++ a)) with (0, TWord "return" :: py_lex a)%list. cbn [fst snd filter filled map]. now rewrite Nat.add_0_r.
      + inversion H as [|? t2 ? ts2 B2 H2]; subst. destruct (items_text (indent * 2) (a :: b :: l) (t :: t2 :: ts2) (Forall2_cons _ _ A H) ltac:(discriminate)) as (I1 & I2 & I3).
        cbn [py_return preturn]. unfold join_and_indent. set (I := indent_lines (indent * 2) (join ("," ++ newline) (a :: b :: l))) in *.
        exists [(TWord "return" :: TPunct "(" :: py_lex I ++ [TPunct ")"])%list]. split; [apply opens_simple; now apply ps_tuple|].
        set (M := newline ++ spaces (indent * 2) ++ I ++ newline ++ spaces indent).
        assert (deep M) as DM by (unfold M; repeat apply deep_app; try exact I1; try apply deep_newline; apply deep_flat, flat_spaces).
        replace (spaces indent ++ "return " ++ ("(" ++ newline) ++ spaces (indent * 2) ++ I ++ newline ++ spaces indent ++ ")")
          with ((spaces indent ++ "return (") ++ M ++ ")") by (unfold M; rewrite !sapp_assoc; reflexivity).
        assert (noline (spaces indent ++ "return (") = true) as Nl by (rewrite noline_app; now rewrite (proj1 (flat_spaces indent))).
        assert (depthf 0 (spaces indent ++ "return (") = 1) as Dp by (rewrite depth_app; now rewrite (proj2 (flat_spaces indent))).
        rewrite logical_noline, Dp by assumption. rewrite DM, logical_close.
        unfold lines_of. cbn [map]. change ("" ++ spaces indent ++ "return (") with (spaces indent ++ "return ("). rewrite !sapp_assoc, line_spaces. unfold shift.
        replace (line_of ("return (" ++ M ++ ")")) with (0, TWord "return" :: TPunct "(" :: py_lex I ++ [TPunct ")"])%list.
        { cbn [fst snd filter filled map]. now rewrite Nat.add_0_r. }
        unfold line_of. f_equal. unfold M. rewrite !sapp_assoc.
        change (py_lex ("return (" ++ newline ++ spaces (indent * 2) ++ I ++ newline ++ spaces indent ++ ")"))
          with (TWord "return" :: TPunct "(" :: py_lex (spaces (indent * 2) ++ I ++ newline ++ spaces indent ++ ")"))%list.
        rewrite lex_spaces. do 2 f_equal. unfold py_lex at 2.
        change (newline ++ spaces indent ++ ")") with (String (ascii_of_nat 10) (spaces indent ++ ")")).
        rewrite (lex_apart (ascii_of_nat 10) (spaces indent ++ ")") (apart_some _ (or_intror (or_intror (or_intror (or_introl eq_refl))))) I "").
        f_equal. change (py_lex (String (ascii_of_nat 10) (spaces indent ++ ")"))) with (py_lex (spaces indent ++ ")")). now rewrite lex_spaces.
  Qed.

  (** ** Bodies *)
  Lemma split_value l e : split_return (l ++ [SReturn e])%list = (l, Some e).
  Proof. induction l as [|x l IH]; [reflexivity|]. cbn. rewrite IH. destruct x, l; reflexivity. Qed.
  Lemma split_none l : Forall (pstmt_fits T ftext) l -> split_return l = (l, None).
  Proof.
    induction 1 as [|x l F H IH]; [reflexivity|]. cbn. rewrite IH. inversion F; subst; destruct l; reflexivity.
  Qed.
  Lemma names_items outs : Forall py_name outs -> Forall2 item outs (map PId outs).
  Proof. induction 1; cbn; constructor; auto. split; [now apply name_reads|now apply flat_name]. Qed.
  Lemma body_lines l items ts : Forall (pstmt_fits T ftext) l -> Forall2 item items ts -> exists ss b,
    py_stmts T w ftext indent l = Ok ss /\ Forall2 says l b /\
    pblock indent (py_lines (join_and_indent indent "" newline newline ss ++ py_return indent items)) (b ++ preturn ts).
  Proof.
    intros F H. destruct (stmts_printed l) as (ss & lss & b & E & L & S & O & N); auto.
    { apply Forall_forall. intros s _. apply stmt_printed. }
    exists ss, b. split; [assumption|]. split; [assumption|].
    assert (lays (join newline ss) (List.concat lss)) as LJ.
    { destruct ss as [|x ss]; [inversion L; subst; exact (lays_line "" (flat_mild "" eq_refl))|]. apply lays_join; [discriminate|assumption]. }
    destruct (lays_indent indent _ _ LJ) as (fs & Ef & Nf & Ff & Lf). destruct (return_line items ts H) as (r0 & Or & Er).
    unfold join_and_indent. rewrite !sapp_assoc. cbn [append]. rewrite <- sapp_assoc, Ef. unfold py_lines.
    rewrite logical_join by assumption. rewrite map_app, filter_app. unfold lines_of in Lf, Er. rewrite Lf, Er.
    assert (map (fun x : list token => (indent, x)) r0 = map (shift indent) (map (fun x => (0, x)) r0)) as ->.
    { rewrite map_map. apply map_ext. intros x. unfold shift. cbn. now rewrite Nat.add_0_r. }
    apply O. now apply opens_alone.
  Qed.
  Theorem body_printed outs l : Forall py_name outs -> pbody_fits T ftext outs l ->
    exists s b, py_body T w ftext indent outs l = Ok s /\ py_body_reads s b /\ pbody_says T w ftext outs l b.
  Proof.
    intros No [l0 N F|l0 e F Fe].
    - destruct (body_lines l0 outs (map PId outs) F (names_items outs No)) as (ss & b & E & S & B).
      eexists. exists (b ++ preturn (map PId outs))%list. split; [|split; [split; [|exists indent; split; [exact In0|exact B]]|now constructor]].
      + unfold py_body. rewrite (split_none l0 F). destruct l0; [congruence|]. rewrite E. reflexivity.
      + destruct S; [congruence|discriminate].
    - destruct (expression e Fe) as (t & G & Sy & Fl).
      destruct (body_lines l0 (text e :: outs) (t :: map PId outs) F) as (ss & b & E & S & B); [constructor; [now split|now apply names_items]|].
      eexists. exists (b ++ preturn (t :: map PId outs))%list. split; [|split; [split; [|exists indent; split; [exact In0|exact B]]|now constructor]].
      + unfold py_body. rewrite split_value. destruct (l0 ++ [SReturn e])%list eqn:Q; [now destruct l0|]. rewrite E. reflexivity.
      + destruct b; discriminate.
  Qed.
End Printed.
