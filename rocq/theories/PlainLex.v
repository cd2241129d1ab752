(** Texts that are written down piece by piece: their tokens and how they are read. *)
From Coq Require Import String Ascii List Arith ZArith Reals Bool Lia Lra DecimalString Decimal DecimalZ.
From Verif Require Import Outcome ExprModel ExprSpec ValProofs CppSpec CppParse PySpec PyParse PlainModel PlainSpec.
From Verif Require AstSpec AstModel AstProofs.
Import ListNotations.
Open Scope string_scope.
Open Scope nat_scope.

Notation plex := (py_lex_from "").
Definition sapp_assoc := AstProofs.sapp_assoc.
Definition sapp_nil := AstProofs.sapp_nil.

(** ** Tokens *)
Definition phalts (w rest : string) : Prop := match rest with EmptyString => True | String c _ => py_extends w c = false end.
Lemma plex_halt w rest : phalts w rest -> py_lex_from w rest = (py_token w ++ plex rest)%list.
Proof.
  destruct rest as [|c r]; cbn [phalts py_lex_from].
  - intros _. cbn. now rewrite app_nil_r.
  - intros ->. reflexivity.
Qed.
Lemma plex_grow t : forall w rest, py_one_token w t = true -> py_lex_from w (t ++ rest) = py_lex_from (w ++ t) rest.
Proof.
  induction t as [|c t IH]; intros w rest H; cbn in H |- *; [now rewrite sapp_nil|].
  apply andb_true_iff in H as [H1 H2]. rewrite H1, IH by assumption. unfold snoc. now rewrite sapp_assoc.
Qed.
Lemma plex_one c t rest : is_space c = false -> py_one_token (String c "") t = true -> phalts (String c t) rest ->
  plex (String c t ++ rest) = (py_token (String c t) ++ plex rest)%list.
Proof.
  intros S O H. cbn [append py_lex_from py_extends]. rewrite S. cbn [py_token app].
  rewrite plex_grow by assumption. cbn [append]. now apply plex_halt.
Qed.

(** What may follow the text of an expression, and how such texts begin. *)
Definition stop_char (c : ascii) : bool :=
  (Ascii.eqb c " " || Ascii.eqb c ")" || Ascii.eqb c "," || Ascii.eqb c "*" || Ascii.eqb c "/" || Ascii.eqb c "]")%char.
Definition stops (rest : string) : Prop := match rest with EmptyString => True | String c _ => stop_char c = true end.
(** After a name there may also be an access. *)
Definition stops' (rest : string) : Prop :=
  match rest with EmptyString => True | String c _ => stop_char c || Ascii.eqb c "(" || Ascii.eqb c "[" || Ascii.eqb c "." = true end.
Lemma stops_weak r : stops r -> stops' r.
Proof. destruct r as [|c r]; cbn [stops stops']; auto. now intros ->. Qed.
Definition start_char (c : ascii) : bool := (py_word_char c || Ascii.eqb c "(" || Ascii.eqb c "-")%char.
Definition starts (s : string) : Prop := match s with EmptyString => False | String c _ => start_char c = true end.
Lemma starts_app a b : starts a -> starts (a ++ b).
Proof. destruct a; cbn; tauto. Qed.

Lemma pword_not_space c : py_word_char c = true -> is_space c = false.
Proof. destruct c as [[] [] [] [] [] [] [] []]; cbv; auto. Qed.
Lemma pword_token t : forall w c, py_letter c = true -> AstSpec.all_chars py_word_char t = true ->
  py_one_token (String c w) t = true.
Proof.
  induction t as [|x t IH]; intros w c L A; cbn in A |- *; [reflexivity|].
  apply andb_true_iff in A as [A1 A2]. rewrite L, A1. cbn [andb]. now apply IH.
Qed.
Lemma plex_word s rest : py_identifier s -> stops' rest -> plex (s ++ rest) = (TWord s :: plex rest)%list.
Proof.
  destruct s as [|c t]; [intros []|]. intros (L & A & K) F.
  rewrite plex_one.
  - cbn [py_token]. now rewrite L.
  - apply pword_not_space. unfold py_word_char. now rewrite L.
  - now apply pword_token.
  - destruct rest as [|x r]; [exact Logic.I|]. cbn [phalts py_extends stops'] in *. rewrite L.
    clear -F. destruct x as [[] [] [] [] [] [] [] []]; cbv in F |- *; auto; discriminate.
Qed.
Lemma pdigit_not_letter c : is_digit c = true -> py_letter c = false.
Proof. destruct c as [[] [] [] [] [] [] [] []]; cbv; auto; discriminate. Qed.
Lemma plex_number s rest : py_number s -> stops rest -> plex (s ++ rest) = (TNum s :: plex rest)%list.
Proof.
  destruct s as [|c t]; [intros []|]. intros (L & A) F.
  pose proof (pdigit_not_letter _ L) as NL.
  rewrite plex_one.
  - cbn [py_token]. now rewrite NL, L.
  - apply pword_not_space. unfold py_word_char. rewrite L. apply orb_true_r.
  - assumption.
  - destruct rest as [|x r]; [exact Logic.I|]. cbn [phalts py_extends stops] in *. rewrite NL, L. cbn [orb].
    clear -F. destruct x as [[] [] [] [] [] [] [] []]; cbv in F |- *; auto; discriminate.
Qed.
Lemma plex_open rest : plex ("(" ++ rest) = (TPunct "(" :: plex rest)%list.
Proof. apply (plex_halt "("). now destruct rest. Qed.
Lemma plex_close rest : plex (")" ++ rest) = (TPunct ")" :: plex rest)%list.
Proof. apply (plex_halt ")"). now destruct rest. Qed.
Lemma plex_bracket rest : plex ("[" ++ rest) = (TPunct "[" :: plex rest)%list.
Proof. apply (plex_halt "["). now destruct rest. Qed.
Lemma plex_unbracket rest : plex ("]" ++ rest) = (TPunct "]" :: plex rest)%list.
Proof. apply (plex_halt "]"). now destruct rest. Qed.
Lemma plex_comma rest : plex (", " ++ rest) = (TPunct "," :: plex rest)%list.
Proof. exact (plex_halt "," (String " " rest) eq_refl). Qed.
Lemma plex_spaced o rest : is_in o ["+"; "-"; "<"; "<="; "=="] = true ->
  plex (" " ++ o ++ " " ++ rest) = (TPunct o :: plex rest)%list.
Proof.
  intros H. apply is_in_In in H. cbn in H.
  repeat destruct H as [H|H]; try contradiction; subst o; reflexivity.
Qed.
Lemma plex_glued o rest : is_in o ["*"; "/"; "**"; "-"] = true -> starts rest ->
  plex (o ++ rest) = (TPunct o :: plex rest)%list.
Proof.
  intros H S. apply is_in_In in H. cbn in H. destruct rest as [|c r]; [destruct S|]. cbn [starts] in S.
  assert (forall w, In w ["*"; "/"; "**"; "-"] -> py_extends w c = false) as X.
  { intros w W. cbn in W. repeat destruct W as [W|W]; try contradiction; subst w;
      clear -S; destruct c as [[] [] [] [] [] [] [] []]; cbv in S |- *; auto; discriminate. }
  repeat destruct H as [H|H]; try contradiction; subst o; match goal with |- plex (?o ++ _) = _ => exact (plex_halt o (String c r) (X o ltac:(cbn; auto))) end.
Qed.
Lemma starts_letter c t : py_letter c = true -> starts (String c t).
Proof. intros L. cbn. unfold start_char, py_word_char. now rewrite L. Qed.
Lemma starts_identifier s : py_identifier s -> starts s.
Proof. destruct s as [|c t]; [intros []|]. intros (L & _). now apply starts_letter. Qed.
Lemma starts_number s : py_number s -> starts s.
Proof. destruct s as [|c t]; [intros []|]. intros (L & _). cbn. unfold start_char, py_word_char. now rewrite L, orb_true_r. Qed.
Lemma plex_dot f rest : py_identifier f -> plex ("." ++ f ++ rest) = (TPunct "." :: plex (f ++ rest))%list.
Proof.
  destruct f as [|c t]; [intros []|]. intros (L & _). apply (plex_halt "." (String c (t ++ rest))). cbn [phalts].
  clear -L. destruct c as [[] [] [] [] [] [] [] []]; cbv in L |- *; auto; discriminate.
Qed.

(** ** Decimal numbers *)
Lemma pdigits_token t : forall w c, is_digit c = true -> AstSpec.all_chars is_digit t = true -> py_one_token (String c w) t = true.
Proof.
  induction t as [|x t IH]; intros w c L A; cbn in A |- *; [reflexivity|].
  apply andb_true_iff in A as [A1 A2]. rewrite (pdigit_not_letter _ L), L. cbn [orb].
  unfold py_word_char. rewrite A1, orb_true_r. cbn [orb andb]. now apply IH.
Qed.
Lemma puint_number d : py_number (NilZero.string_of_uint d).
Proof.
  assert (forall s, s <> "" -> AstSpec.all_chars is_digit s = true -> py_number s) as H.
  { intros [|c t] N A; [congruence|]. cbn in A. apply andb_true_iff in A as [A1 A2]. split; [assumption|]. now apply pdigits_token. }
  destruct d; apply H; try discriminate; cbn; try apply AstProofs.digits_chars; reflexivity.
Qed.
Lemma pdec_number z : (0 <= z)%Z -> py_number (AstModel.dec z).
Proof.
  destruct z as [|p|p]; intros L.
  - exact (puint_number (Decimal.D0 Nil)).
  - exact (puint_number (Pos.to_uint p)).
  - lia.
Qed.
Lemma dec_string z : NilZero.int_of_string (AstModel.dec z) = Some (Z.to_int z).
Proof.
  assert (Decimal.Pos Decimal.Nil <> Z.to_int z /\ Decimal.Neg Decimal.Nil <> Z.to_int z) as [P Q].
  { split; intros H; pose proof (f_equal Z.of_int H) as E; rewrite DecimalZ.of_to in E; subst z; discriminate. }
  unfold AstModel.dec. now rewrite NilZero.isi by congruence.
Qed.
Lemma dec_value z : num_value (AstModel.dec z) = Rv (IZR z).
Proof. unfold num_value. rewrite dec_string. now rewrite DecimalZ.of_to. Qed.

(** ** Texts *)
Definition tokens (s : string) (ts : list token) : Prop :=
  starts s /\ forall rest, stops rest -> plex (s ++ rest) = (ts ++ plex rest)%list.
Definition written (n : nat) (s : string) (t : pexp) : Prop := exists ts, tokens s ts /\ pgram n ts t.

Lemma written_reads s t : written 0 s t -> py_reads s t.
Proof.
  intros (ts & (_ & H) & G). unfold py_reads, py_lex. specialize (H "" Logic.I). rewrite sapp_nil in H. rewrite H.
  cbn. now rewrite app_nil_r.
Qed.
Lemma pgram_down n m ts t : n <= m -> m <= 5 -> pgram m ts t -> pgram n ts t.
Proof.
  intros L. induction L as [|m L IH]; intros B G; [assumption|]. apply IH; [lia|]. apply pg_up; [lia|assumption].
Qed.
Lemma written_down n m s t : n <= m -> m <= 5 -> written m s t -> written n s t.
Proof. intros L B (ts & K & G). exists ts. split; auto. eapply pgram_down; eauto. Qed.
Lemma written_starts n s t : written n s t -> starts s.
Proof. now intros (ts & (S & _) & _). Qed.

Lemma written_number s : py_number s -> written 5 s (PNum s).
Proof. intros N. exists [TNum s]. split; [split|apply pg_num]; [now apply starts_number|]. intros rest S. now apply plex_number. Qed.
Lemma written_name s : py_identifier s -> written 5 s (PId s).
Proof.
  intros N. exists [TWord s]. split; [split|]; [now apply starts_identifier| |].
  - intros rest S. apply plex_word; auto. now apply stops_weak.
  - apply pg_id. destruct s; [destruct N|]. apply N.
Qed.
Lemma written_bool (b : bool) : written 5 (if b then "True" else "False") (PBool b).
Proof.
  exists [TWord (if b then "True" else "False")]. split; [split|destruct b; [apply pg_true|apply pg_false]].
  - now destruct b.
  - intros rest S.
    assert (phalts (if b then "True" else "False") rest) as H.
    { destruct rest as [|c rest]; [exact Logic.I|]. cbn [phalts stops] in *. clear -S.
      destruct b; destruct c as [[] [] [] [] [] [] [] []]; cbv in S |- *; auto; discriminate. }
    transitivity (py_lex_from (if b then "True" else "False") rest).
    + destruct b; reflexivity.
    + rewrite plex_halt by assumption. now destruct b.
Qed.
Lemma written_paren s t : written 0 s t -> written 5 ("(" ++ s ++ ")") t.
Proof.
  intros (ts & (S & K) & G). exists (TPunct "(" :: ts ++ [TPunct ")"])%list. split; [split|now apply pg_paren].
  - reflexivity.
  - intros rest Hr. rewrite !sapp_assoc, plex_open, K by reflexivity. rewrite plex_close. cbn. now rewrite <- app_assoc.
Qed.
Lemma written_glued n a b x y o k z : is_in o ["*"; "/"; "**"] = true ->
  (forall t1 t2, pgram n t1 x -> pgram 3 t2 y -> pgram k (t1 ++ TPunct o :: t2) z) ->
  written n a x -> written 3 b y -> written k (a ++ o ++ b) z.
Proof.
  intros O H (t1 & (S1 & K1) & G1) (t2 & (S2 & K2) & G2).
  exists (t1 ++ TPunct o :: t2)%list. split; [split|now apply H].
  - now apply starts_app.
  - intros rest Hr. rewrite !sapp_assoc, K1.
    + rewrite plex_glued; [|apply is_in_In in O; cbn in O; apply is_in_In; cbn; tauto|now apply starts_app].
      rewrite K2 by assumption. now rewrite <- app_assoc.
    + apply is_in_In in O; cbn in O. repeat destruct O as [O|O]; try contradiction; subst o; reflexivity.
Qed.
Lemma written_mul a b x y : written 2 a x -> written 3 b y -> written 2 (a ++ "*" ++ b) (PBin "*" x y).
Proof. apply (written_glued 2 a b x y "*"); [reflexivity|]. intros. apply pg_bin; cbn; auto. Qed.
Lemma written_div a b x y : written 2 a x -> written 3 b y -> written 2 (a ++ "/" ++ b) (PBin "/" x y).
Proof. apply (written_glued 2 a b x y "/"); [reflexivity|]. intros. apply pg_bin; cbn; auto. Qed.
Lemma written_pow a b x y : written 5 a x -> written 3 b y -> written 4 (a ++ "**" ++ b) (PBin "**" x y).
Proof. apply (written_glued 5 a b x y "**"); [reflexivity|]. intros. now apply pg_pow. Qed.
Lemma tokens_minus s ts : tokens s ts -> tokens ("-" ++ s) (TPunct "-" :: ts).
Proof.
  intros (S & K). split; [reflexivity|]. intros rest Hr. rewrite sapp_assoc, plex_glued; [|reflexivity|now apply starts_app].
  now rewrite K.
Qed.
Lemma written_minus s t : written 3 s t -> written 3 ("-" ++ s) (PUn "-" t).
Proof. intros (ts & K & G). exists (TPunct "-" :: ts). split; [now apply tokens_minus|]. apply pg_un; cbn; auto. Qed.

(** A minus sign before a product belongs to its first factor. *)
Lemma vneg_mul a b : vneg (vmul a b) = vmul (vneg a) b.
Proof.
  destruct a as [x| |], b as [y| |]; cbn; auto; try (f_equal; ring).
  - destruct (Req_EM_T x 0) as [N|N], (Req_EM_T (- x) 0) as [M|M]; cbn; auto; try (f_equal; ring); exfalso; lra.
  - destruct (Req_EM_T y 0) as [N|N]; cbn; auto; f_equal; ring.
Qed.
Lemma vneg_div a b : vneg (vdiv a b) = vdiv (vneg a) b.
Proof.
  destruct a as [x| |], b as [y| |]; cbn; auto; destruct (Req_EM_T _ 0); cbn; auto. f_equal. now field.
Qed.
Lemma bin_neg o a b : In o (py_binops 2) -> bin_value o (vneg a) b = vneg (bin_value o a b).
Proof.
  intros H. cbn in H. repeat destruct H as [H|H]; try contradiction; subst o; cbn; auto.
  - symmetry. apply vneg_mul.
  - symmetry. apply vneg_div.
Qed.
Lemma written_negated E s t : written 2 s t -> exists t', written 2 ("-" ++ s) t' /\ pvalue E t' = vneg (pvalue E t).
Proof.
  intros (ts & K & G).
  assert (exists t', pgram 2 (TPunct "-" :: ts) t' /\ pvalue E t' = vneg (pvalue E t)) as (t' & G' & V).
  { clear K. remember 2 as n eqn:Hn. induction G; try discriminate; subst.
    - exists (PUn "-" e). split; [|reflexivity]. apply pg_up; [lia|]. apply pg_un; cbn; auto.
    - destruct IHG1 as (a' & Ga & Va); auto. exists (PBin o a' b). split; [exact (pg_bin 2 o _ _ a' b ltac:(assumption) Ga G2)|].
      cbn [pvalue]. rewrite Va. now apply bin_neg. }
  exists t'. split; [|assumption]. exists (TPunct "-" :: ts). split; [now apply tokens_minus|assumption].
Qed.

(** Sums, comparisons. *)
Lemma written_spaced n a b x y o k z : is_in o ["+"; "-"; "<"; "<="; "=="] = true ->
  (forall t1 t2, pgram n t1 x -> pgram (S n) t2 y -> pgram k (t1 ++ TPunct o :: t2) z) ->
  written n a x -> written (S n) b y -> written k (a ++ " " ++ o ++ " " ++ b) z.
Proof.
  intros O H (t1 & (S1 & K1) & G1) (t2 & (S2 & K2) & G2). exists (t1 ++ TPunct o :: t2)%list. split; [split|now apply H].
  - now apply starts_app.
  - intros rest Hr. rewrite !sapp_assoc, K1 by reflexivity. rewrite plex_spaced, K2 by assumption. now rewrite <- app_assoc.
Qed.
Lemma written_add a b x y : written 1 a x -> written 2 b y -> written 1 (a ++ " + " ++ b) (PBin "+" x y).
Proof. apply (written_spaced 1 a b x y "+"); [reflexivity|]. intros. apply pg_bin; cbn; auto. Qed.
Lemma written_sub a b x y : written 1 a x -> written 2 b y -> written 1 (a ++ " - " ++ b) (PBin "-" x y).
Proof. apply (written_spaced 1 a b x y "-"); [reflexivity|]. intros. apply pg_bin; cbn; auto. Qed.
Lemma written_cmp a b x y o : is_in o ["<"; "<="; "=="] = true -> written 1 a x -> written 1 b y ->
  written 0 (a ++ " " ++ o ++ " " ++ b) (PBin o x y).
Proof.
  intros O (t1 & (S1 & K1) & G1) (t2 & (S2 & K2) & G2). exists (t1 ++ TPunct o :: t2)%list. split; [split|].
  - now apply starts_app.
  - intros rest Hr. rewrite !sapp_assoc, K1 by reflexivity. rewrite plex_spaced, K2; auto.
    + now rewrite <- app_assoc.
    + apply is_in_In in O. apply is_in_In. cbn in O |- *. tauto.
  - apply pg_cmp; auto. apply is_in_In in O. cbn in O |- *. tauto.
Qed.

(** Calls. *)
Definition written_args (s : string) (l : list pexp) : Prop :=
  exists ts, pgram_args ts l /\ forall rest, plex (s ++ ")" ++ rest) = (ts ++ plex (")" ++ rest))%list.
Lemma written_args_of ss ts : Forall2 (written 0) ss ts -> written_args (String.concat ", " ss) ts.
Proof.
  intros H. destruct H as [|a x ss xs (t & (S1 & K) & G) H].
  - exists []. split; [constructor|reflexivity].
  - enough (exists ts, pgram_args1 true ts (x :: xs) /\ forall rest, stops rest -> plex (String.concat ", " (a :: ss) ++ rest) = (ts ++ plex rest)%list) as (ts & G' & K').
    { exists ts. split; [now apply pa_some|]. intros rest. now apply K'. }
    revert a x t S1 K G. induction H as [|b y ss xs (t' & (S2 & K2) & G2) H IH]; intros.
    + exists t. split; [now apply pa_one|]. exact K.
    + destruct (IH b y t' S2 K2 G2) as (ts & G' & K'). exists (t ++ TPunct "," :: ts)%list. split; [now apply pa_more|].
      intros rest Hr. change (String.concat ", " (a :: b :: ss)) with (a ++ ", " ++ String.concat ", " (b :: ss)).
      rewrite !sapp_assoc, K by reflexivity. rewrite plex_comma, K' by assumption. now rewrite <- app_assoc.
Qed.
Lemma written_call f s l : py_identifier f -> written_args s l -> written 5 (f ++ "(" ++ s ++ ")") (PCall (PId f) l).
Proof.
  intros N (ts & G & K). exists ((TWord f :: []) ++ TPunct "(" :: ts ++ [TPunct ")"])%list. split; [split|].
  - apply starts_app. now apply starts_identifier.
  - intros rest Hr. rewrite !sapp_assoc, plex_word by (assumption || reflexivity). rewrite plex_open, K, plex_close.
    cbn. now rewrite <- app_assoc.
  - apply pg_call; [|assumption]. apply pg_id. destruct f; [destruct N|]. apply N.
Qed.

(** Names with accesses. *)
Definition primary (s : string) (t : pexp) : Prop :=
  starts s /\ exists ts, pgram 5 ts t /\ forall rest, stops' rest -> plex (s ++ rest) = (ts ++ plex rest)%list.
Lemma primary_written s t : primary s t -> written 5 s t.
Proof. intros (S & ts & G & K). exists ts. split; [split|]; auto. intros rest Hr. apply K. now apply stops_weak. Qed.
Lemma primary_name s : py_identifier s -> primary s (PId s).
Proof.
  intros N. split; [now apply starts_identifier|]. exists [TWord s]. split.
  - apply pg_id. destruct s; [destruct N|]. apply N.
  - intros rest Hr. now apply plex_word.
Qed.
Lemma primary_dot s t f : py_identifier f -> primary s t -> primary (s ++ "." ++ f) (PDot t f).
Proof.
  intros N (S & ts & G & K). split; [now apply starts_app|]. exists (ts ++ [TPunct "."; TWord f])%list. split.
  - apply pg_dot; auto. destruct f; [destruct N|]. apply N.
  - intros rest Hr. rewrite !sapp_assoc, K by reflexivity. rewrite plex_dot, plex_word by assumption. now rewrite <- app_assoc.
Qed.
Lemma primary_sub s t a b : py_number a -> py_number b -> primary s t ->
  primary (s ++ "[" ++ a ++ ", " ++ b ++ "]") (PSub t [PNum a; PNum b]).
Proof.
  intros A B (S & ts & G & K). split; [now apply starts_app|].
  exists (ts ++ TPunct "[" :: ([TNum a] ++ TPunct "," :: [TNum b]) ++ [TPunct "]"])%list. split.
  - apply pg_sub; auto. apply pa_more; [|apply pa_one]; apply (pgram_down 0 5); try lia; apply pg_num.
  - intros rest Hr. rewrite !sapp_assoc, K by reflexivity. rewrite plex_bracket, plex_number by (assumption || reflexivity).
    rewrite plex_comma, plex_number by (assumption || reflexivity). rewrite plex_unbracket. now rewrite <- app_assoc.
Qed.
