(** The Rust text of a tree whose operands fit is read as the tree. *)
From Coq Require Import String Ascii List Arith ZArith Bool Lia DecimalString Decimal.
From Verif Require Import Outcome NumProofs IrModel CppSpec CppParse AstModel AstSpec AstProofs AstTree RustSpec RustParse RustModel RustCodeSpec.
Import ListNotations.
Open Scope string_scope.
Open Scope nat_scope.

Notation rlex := (rs_lex_from "").

(** ** Tokens *)
Definition rhalts (w rest : string) : Prop := match rest with EmptyString => True | String c _ => rs_extends w c = false end.
Lemma rlex_halt w rest : rhalts w rest -> rs_lex_from w rest = (rs_token w ++ rlex rest)%list.
Proof.
  destruct rest as [|c r]; cbn [rhalts rs_lex_from].
  - intros _. cbn. now rewrite app_nil_r.
  - intros ->. reflexivity.
Qed.
Lemma rlex_grow t : forall w rest, rs_one_token w t = true -> rs_lex_from w (t ++ rest) = rs_lex_from (w ++ t) rest.
Proof.
  induction t as [|c t IH]; intros w rest H; cbn in H |- *; [now rewrite sapp_nil|].
  apply andb_true_iff in H as [H1 H2]. rewrite H1, IH by assumption. unfold snoc. now rewrite sapp_assoc.
Qed.
Lemma rlex_one c t rest : is_space c = false -> rs_one_token (String c "") t = true -> rhalts (String c t) rest ->
  rlex (String c t ++ rest) = (rs_token (String c t) ++ rlex rest)%list.
Proof.
  intros S O H. cbn [append rs_lex_from rs_extends]. rewrite S. cbn [rs_token app].
  rewrite rlex_grow by assumption. cbn [append]. now apply rlex_halt.
Qed.

(** What may follow the text of an expression, and how such texts begin. *)
Definition rstop_char (c : ascii) : bool := (Ascii.eqb c " " || Ascii.eqb c ")" || Ascii.eqb c "," || Ascii.eqb c "]")%char.
Definition rstops (rest : string) : Prop := match rest with EmptyString => True | String c _ => rstop_char c = true end.
(** After a name there may also be an access. *)
Definition rstops' (rest : string) : Prop :=
  match rest with EmptyString => True | String c _ => rstop_char c || Ascii.eqb c "(" || Ascii.eqb c "[" || Ascii.eqb c "." = true end.
Lemma rstops_weak r : rstops r -> rstops' r.
Proof. destruct r as [|c r]; cbn [rstops rstops']; auto. now intros ->. Qed.
Definition rstart_char (c : ascii) : bool := (is_word_char c || Ascii.eqb c "(" || Ascii.eqb c "-")%char.
Definition rstarts (s : string) : Prop := match s with EmptyString => False | String c _ => rstart_char c = true end.
Lemma rstarts_app a b : rstarts a -> rstarts (a ++ b).
Proof. destruct a; cbn; tauto. Qed.

Lemma rword_not_space c : is_word_char c = true -> is_space c = false.
Proof. destruct c as [[] [] [] [] [] [] [] []]; cbv; auto. Qed.
Lemma rword_token t : forall w c, is_letter c = true -> all_chars is_word_char t = true -> rs_one_token (String c w) t = true.
Proof.
  induction t as [|x t IH]; intros w c L A; cbn in A |- *; [reflexivity|].
  apply andb_true_iff in A as [A1 A2]. rewrite L, A1. cbn [andb]. now apply IH.
Qed.
Lemma rlex_word_any s rest : match s with EmptyString => False | String c t => is_letter c = true /\ all_chars is_word_char t = true end ->
  rstops' rest -> rlex (s ++ rest) = (TWord s :: rlex rest)%list.
Proof.
  destruct s as [|c t]; [intros []|]. intros (L & A) F.
  rewrite rlex_one.
  - cbn [rs_token]. now rewrite L.
  - apply rword_not_space. unfold is_word_char. now rewrite L.
  - now apply rword_token.
  - destruct rest as [|x r]; [exact Logic.I|]. cbn [rhalts rs_extends rstops'] in *. rewrite L.
    clear -F. destruct x as [[] [] [] [] [] [] [] []]; cbv in F |- *; auto; discriminate.
Qed.
Lemma rlex_word s rest : rs_name s -> rstops' rest -> rlex (s ++ rest) = (TWord s :: rlex rest)%list.
Proof. destruct s as [|c t]; [intros []|]. intros (L & A & K) F. now apply rlex_word_any. Qed.
Lemma rdigit_not_letter c : is_digit c = true -> is_letter c = false.
Proof. destruct c as [[] [] [] [] [] [] [] []]; cbv; auto; discriminate. Qed.
Lemma rlex_number s rest : rs_number s -> rstops rest -> rlex (s ++ rest) = (TNum s :: rlex rest)%list.
Proof.
  destruct s as [|c t]; [intros []|]. intros (L & A) F.
  pose proof (rdigit_not_letter _ L) as NL.
  rewrite rlex_one.
  - cbn [rs_token]. now rewrite NL, L.
  - apply rword_not_space. unfold is_word_char. rewrite L. apply orb_true_r.
  - assumption.
  - destruct rest as [|x r]; [exact Logic.I|]. cbn [rhalts rs_extends rstops] in *. rewrite NL, L.
    clear -F. destruct x as [[] [] [] [] [] [] [] []]; cbv in F; try discriminate; reflexivity.
Qed.
Lemma rlex_single o rest : is_in o ["("; ")"; "["; "]"; ","; "{"; "}"] = true -> rlex (o ++ rest) = (TPunct o :: rlex rest)%list.
Proof.
  intros H. apply CppParse.is_in_In in H. cbn in H. repeat destruct H as [H|H]; try contradiction; subst o;
    match goal with |- rlex (?o ++ _) = _ => apply (rlex_halt o) end; now destruct rest.
Qed.
Lemma rlex_comma rest : rlex (", " ++ rest) = (TPunct "," :: rlex rest)%list.
Proof. exact (rlex_halt "," (String " " rest) eq_refl). Qed.
Lemma rlex_spaced o rest : is_in o ["+"; "-"; "*"; "/"; "<"; "<="; "=="] = true ->
  rlex (" " ++ o ++ " " ++ rest) = (TPunct o :: rlex rest)%list.
Proof.
  intros H. apply CppParse.is_in_In in H. cbn in H. repeat destruct H as [H|H]; try contradiction; subst o; reflexivity.
Qed.
Lemma rlex_glued o rest : is_in o ["-"; "&"] = true -> rstarts rest -> rlex (o ++ rest) = (TPunct o :: rlex rest)%list.
Proof.
  intros H S. apply CppParse.is_in_In in H. cbn in H. destruct rest as [|c r]; [destruct S|]. cbn [rstarts] in S.
  assert (forall w, In w ["-"; "&"] -> rs_extends w c = false) as X.
  { intros w W. cbn in W. repeat destruct W as [W|W]; try contradiction; subst w;
      clear -S; destruct c as [[] [] [] [] [] [] [] []]; cbv in S |- *; auto; discriminate. }
  repeat destruct H as [H|H]; try contradiction; subst o; match goal with |- rlex (?o ++ _) = _ => exact (rlex_halt o (String c r) (X o ltac:(cbn; auto))) end.
Qed.
Lemma rstarts_name s : rs_name s -> rstarts s.
Proof. destruct s as [|c t]; [intros []|]. intros (L & _). cbn. unfold rstart_char, is_word_char. now rewrite L. Qed.
Lemma rstarts_number s : rs_number s -> rstarts s.
Proof. destruct s as [|c t]; [intros []|]. intros (L & _). cbn. unfold rstart_char, is_word_char. now rewrite L, orb_true_r. Qed.
Lemma rlex_dot f rest : rs_name f -> rlex ("." ++ f ++ rest) = (TPunct "." :: rlex (f ++ rest))%list.
Proof.
  destruct f as [|c t]; [intros []|]. intros (L & _). apply (rlex_halt "." (String c (t ++ rest))). cbn [rhalts].
  clear -L. destruct c as [[] [] [] [] [] [] [] []]; cbv in L |- *; auto; discriminate.
Qed.

(** ** Decimal numbers *)
Lemma rdigits_token t u : forall w c, is_digit c = true -> all_chars is_digit t = true -> all_chars is_word_char u = true ->
  rs_one_token (String c w) (t ++ u) = true.
Proof.
  induction t as [|x t IH]; intros w c L A B.
  - cbn [append]. revert w. induction u as [|x u IH]; intros w; [reflexivity|]. cbn in B |- *. apply andb_true_iff in B as [B1 B2].
    rewrite (rdigit_not_letter _ L), L, B1. cbn [orb andb]. now apply IH.
  - cbn in A |- *. apply andb_true_iff in A as [A1 A2]. rewrite (rdigit_not_letter _ L), L.
    unfold is_word_char at 1. rewrite A1, orb_true_r. cbn [orb andb]. now apply IH.
Qed.
Lemma ruint_number d u : all_chars is_word_char u = true -> rs_number (NilZero.string_of_uint d ++ u).
Proof.
  intros U. assert (forall s, s <> "" -> all_chars is_digit s = true -> rs_number (s ++ u)) as H.
  { intros [|c t] N A; [congruence|]. cbn in A. apply andb_true_iff in A as [A1 A2]. split; [assumption|]. now apply rdigits_token. }
  destruct d; apply H; try discriminate; cbn; try apply AstProofs.digits_chars; reflexivity.
Qed.
Lemma rdec_number z u : (0 <= z)%Z -> all_chars is_word_char u = true -> rs_number (dec z ++ u).
Proof.
  destruct z as [|p|p]; intros L U.
  - exact (ruint_number (Decimal.D0 Nil) u U).
  - exact (ruint_number (Pos.to_uint p) u U).
  - lia.
Qed.
Lemma rnat_number n : rs_number (dec_nat n).
Proof. rewrite <- (sapp_nil (dec_nat n)). apply rdec_number; [lia|reflexivity]. Qed.

(** ** Texts *)
Definition rtokens (s : string) (ts : list token) : Prop :=
  rstarts s /\ forall rest, rstops rest -> rlex (s ++ rest) = (ts ++ rlex rest)%list.
(** [b]: the text may end with a type. *)
Definition rwritten (n : nat) (b : bool) (s : string) (t : rexp) : Prop :=
  exists ts z, rtokens s ts /\ rgram n z ts t /\ (b = false -> z <> EType).

Lemma rwritten_reads b s t : rwritten 0 b s t -> rs_reads s t.
Proof.
  intros (ts & z & (_ & H) & G & _). unfold rs_reads, rs_lex. specialize (H "" Logic.I). rewrite sapp_nil in H. rewrite H.
  cbn. rewrite app_nil_r. now exists z.
Qed.
Lemma rgram_down n m z ts t : n <= m -> m <= 5 -> rgram m z ts t -> exists z', rgram n z' ts t /\ (z <> EType -> z' <> EType).
Proof.
  intros L. revert z. induction L as [|m L IH]; intros z B G; [now exists z|].
  destruct (Nat.eq_dec m 4) as [->|N].
  - destruct (IH ENone ltac:(lia) (rg_up5 z ts t G)) as (z' & G' & H). exists z'. split; [assumption|]. intros _. now apply H.
  - apply IH; [lia|]. apply rg_up; [lia|assumption].
Qed.
Lemma rwritten_down n m b s t : n <= m -> m <= 5 -> rwritten m b s t -> rwritten n b s t.
Proof.
  intros L B (ts & z & K & G & Z). destruct (rgram_down n m z ts t L B G) as (z' & G' & H). exists ts, z'. repeat split; auto; apply K.
Qed.
Lemma rwritten_weak n b s t : rwritten n false s t -> rwritten n b s t.
Proof. intros (ts & z & K & G & Z). exists ts, z. auto. Qed.
Lemma rwritten_starts n b s t : rwritten n b s t -> rstarts s.
Proof. now intros (ts & z & (S & _) & _). Qed.
(** Texts of the unary level and above never end with a type. *)
Lemma rwritten_tight n b s t : 4 <= n -> rwritten n b s t -> rwritten n false s t.
Proof.
  intros L (ts & z & K & G & Z). exists ts, z. repeat split; auto; try apply K.
  intros _. destruct (proj1 rgram_begins _ _ _ _ G) as (_ & _ & H). apply H. lia.
Qed.

Lemma rwritten_number s : rs_number s -> rwritten 5 false s (RNum s).
Proof.
  intros N. exists [TNum s], ENone. split; [split|split; [apply rg_num|discriminate]]; [now apply rstarts_number|].
  intros rest S. now apply rlex_number.
Qed.
Lemma rwritten_bool (b : bool) : rwritten 5 false (if b then "true" else "false") (RBool b).
Proof.
  exists [TWord (if b then "true" else "false")], ENone. split; [split|split; [destruct b; [apply rg_true|apply rg_false]|discriminate]].
  - now destruct b.
  - intros rest S. destruct b; (apply rlex_word_any; [now split|now apply rstops_weak]).
Qed.
Lemma rwritten_op n a b x y o za zb : In o (rs_binops n) -> is_in o ["+"; "-"; "*"; "/"] = true ->
  rwritten n za a x -> rwritten (S n) zb b y -> rwritten n zb (a ++ " " ++ o ++ " " ++ b) (RBin o x y).
Proof.
  intros I O (t1 & z1 & (S1 & K1) & G1 & _) (t2 & z2 & (S2 & K2) & G2 & Z2). exists (t1 ++ TPunct o :: t2)%list, z2.
  split; [split|split; [eapply rg_bin; eassumption|assumption]].
  - now apply rstarts_app.
  - intros rest Hr. rewrite !sapp_assoc, K1 by reflexivity. rewrite rlex_spaced, K2; [now rewrite <- app_assoc|assumption|].
    apply CppParse.is_in_In in O. apply CppParse.is_in_In. cbn in O |- *. tauto.
Qed.
Lemma rwritten_cmp a b x y o za zb : is_in o ["<"; "<="; "=="] = true -> (o = "<" -> za = false) ->
  rwritten 1 za a x -> rwritten 1 zb b y -> rwritten 0 zb (a ++ " " ++ o ++ " " ++ b) (RBin o x y).
Proof.
  intros O Zo (t1 & z1 & (S1 & K1) & G1 & Z1) (t2 & z2 & (S2 & K2) & G2 & Z2). exists (t1 ++ TPunct o :: t2)%list, z2.
  split; [split|split; [|assumption]].
  - now apply rstarts_app.
  - intros rest Hr. rewrite !sapp_assoc, K1 by reflexivity. rewrite rlex_spaced, K2; [now rewrite <- app_assoc|assumption|].
    apply CppParse.is_in_In in O. apply CppParse.is_in_In. cbn in O |- *. tauto.
  - apply (rg_cmp o z1); auto. apply CppParse.is_in_In in O. cbn in O |- *. tauto.
Qed.
Lemma rgram_none ts z t : rgram 4 z ts t -> rgram 4 ENone ts t.
Proof.
  intros G. inversion G; subst; try lia; try assumption; try (now constructor).
Qed.
Lemma rwritten_minus s t b : rwritten 4 b s t -> rwritten 4 false ("-" ++ s) (RUn "-" t).
Proof.
  intros (ts & z & (S & K) & G & Z). exists (TPunct "-" :: ts), ENone. split; [split; [reflexivity|]|split; [|discriminate]].
  - intros rest Hr. rewrite sapp_assoc, rlex_glued; [|reflexivity|now apply rstarts_app]. now rewrite K.
  - apply rg_un; cbn; auto. now apply rgram_none in G.
Qed.
(** Arguments of calls: anything, or something borrowed. *)
Definition rargument (s : string) (t : rexp) : Prop :=
  exists ts z, (forall rest, rstops rest -> rlex (s ++ rest) = (ts ++ rlex rest)%list) /\ rgram 0 z ts t.
Lemma rwritten_argument b s t : rwritten 0 b s t -> rargument s t.
Proof. intros (ts & z & (_ & K) & G & _). now exists ts, z. Qed.
Lemma rborrowed s t b : rwritten 4 b s t -> rargument ("&" ++ s) (RUn "&" t).
Proof.
  intros (ts & z & (S & K) & G & Z).
  destruct (rgram_down 0 4 ENone (TPunct "&" :: ts) (RUn "&" t)) as (z' & G' & _); [lia|lia| |].
  - apply rg_un; cbn; auto. now apply rgram_none in G.
  - exists (TPunct "&" :: ts), z'. split; [|assumption]. intros rest Hr.
    rewrite sapp_assoc, rlex_glued; [|reflexivity|now apply rstarts_app]. now rewrite K.
Qed.
Definition rwritten_args (s : string) (l : list rexp) : Prop :=
  exists ts, rgram_args ts l /\ forall rest, rlex (s ++ ")" ++ rest) = (ts ++ rlex (")" ++ rest))%list.
Lemma rwritten_args_of ss ts : Forall2 rargument ss ts -> rwritten_args (String.concat ", " ss) ts.
Proof.
  intros H. destruct H as [|a x ss xs (t & z & K & G) H].
  - exists []. split; [constructor|reflexivity].
  - enough (exists ts, rgram_args1 ts (x :: xs) /\ forall rest, rstops rest -> rlex (String.concat ", " (a :: ss) ++ rest) = (ts ++ rlex rest)%list) as (ts & G' & K').
    { exists ts. split; [now apply ra_some|]. intros rest. now apply K'. }
    revert a x t z K G. induction H as [|b y ss xs (t' & z' & K2 & G2) H IH]; intros.
    + exists t. split; [eapply ra_one; eassumption|]. exact K.
    + destruct (IH b y t' z' K2 G2) as (ts & G' & K'). exists (t ++ TPunct "," :: ts)%list. split; [eapply ra_more; eassumption|].
      intros rest Hr. change (String.concat ", " (a :: b :: ss)) with (a ++ ", " ++ String.concat ", " (b :: ss)).
      rewrite !sapp_assoc, K by reflexivity. rewrite rlex_comma, K' by assumption. now rewrite <- app_assoc.
Qed.

(** Names with accesses. *)
Definition rprimary (s : string) (t : rexp) : Prop :=
  rstarts s /\ exists ts z, rgram 5 z ts t /\ forall rest, rstops' rest -> rlex (s ++ rest) = (ts ++ rlex rest)%list.
Lemma rprimary_written b s t : rprimary s t -> rwritten 5 b s t.
Proof.
  intros (S & ts & z & G & K). apply rwritten_weak, (rwritten_tight 5 true); [lia|]. exists ts, z. repeat split; auto; [|discriminate].
  intros rest Hr. apply K. now apply rstops_weak.
Qed.
Lemma rs_name_keyword s : rs_name s -> is_in s rs_keywords = false.
Proof. destruct s; [intros []|]. now intros (_ & _ & K). Qed.
Lemma rprimary_name s : rs_name s -> rprimary s (RId [s]).
Proof.
  intros N. split; [now apply rstarts_name|]. exists [TWord s], ENone. split.
  - apply rg_id. constructor. now apply rs_name_keyword.
  - intros rest Hr. now apply rlex_word.
Qed.
Lemma rprimary_field s t f : rs_name f -> rprimary s t -> rprimary (s ++ "." ++ f) (RField t f).
Proof.
  intros N (S & ts & z & G & K). split; [now apply rstarts_app|]. exists (ts ++ [TPunct "."; TWord f])%list, EField. split.
  - eapply rg_field; [now apply rs_name_keyword|eassumption].
  - intros rest Hr. rewrite !sapp_assoc, K by reflexivity. rewrite rlex_dot, rlex_word by assumption. now rewrite <- app_assoc.
Qed.
Lemma rprimary_method s t f a l : rs_name f -> rprimary s t -> rwritten_args a l ->
  rprimary (s ++ "." ++ f ++ "(" ++ a ++ ")") (RMethod t f l).
Proof.
  intros N (S & ts & z & G & K) (t2 & G2 & K2). split; [now apply rstarts_app|].
  exists (ts ++ TPunct "." :: TWord f :: TPunct "(" :: t2 ++ [TPunct ")"])%list, ENone. split.
  - eapply rg_method; [now apply rs_name_keyword|eassumption|assumption].
  - intros rest Hr. rewrite !sapp_assoc, K by reflexivity. rewrite rlex_dot, rlex_word by (assumption || reflexivity).
    rewrite (rlex_single "("), K2, (rlex_single ")") by reflexivity. rewrite <- app_assoc. cbn. now rewrite <- app_assoc.
Qed.
Lemma rprimary_call f a l : rs_name f -> rwritten_args a l -> rprimary (f ++ "(" ++ a ++ ")") (RCall (RId [f]) l).
Proof.
  intros N (t2 & G2 & K2). split; [apply rstarts_app; now apply rstarts_name|].
  exists ([TWord f] ++ TPunct "(" :: t2 ++ [TPunct ")"])%list, ENone. split.
  - apply (rg_call ENone); [discriminate| |assumption]. apply rg_id. constructor. now apply rs_name_keyword.
  - intros rest Hr. rewrite !sapp_assoc, rlex_word by (assumption || reflexivity).
    rewrite (rlex_single "("), K2, (rlex_single ")") by reflexivity. cbn. now rewrite <- app_assoc.
Qed.
Lemma rprimary_paren b s t : rwritten 0 b s t -> rprimary ("(" ++ s ++ ")") t.
Proof.
  intros (ts & z & (S & K) & G & _). split; [reflexivity|]. exists (TPunct "(" :: ts ++ [TPunct ")"])%list, ENone.
  split; [eapply rg_paren; eassumption|].
  intros rest Hr. rewrite !sapp_assoc, (rlex_single "("), K by reflexivity. rewrite (rlex_single ")") by reflexivity. cbn. now rewrite <- app_assoc.
Qed.
Lemma rnumber_argument s : rs_number s -> rargument s (RNum s).
Proof. intros N. apply (rwritten_argument false). apply (rwritten_down 0 5); [lia|lia|]. now apply rwritten_number. Qed.
Lemma rprimary_index s t a b : rs_number a -> rs_number b -> rprimary s t ->
  rprimary (s ++ "[(" ++ a ++ ", " ++ b ++ ")]") (RIndex t (RTuple [RNum a; RNum b])).
Proof.
  intros A B (S & ts & z & G & K). split; [now apply rstarts_app|].
  destruct (rgram_down 0 5 ENone (TPunct "(" :: ([TNum a] ++ TPunct "," :: [TNum b]) ++ [TPunct ")"])%list (RTuple [RNum a; RNum b])) as (z' & G' & _); [lia|lia| |].
  { assert (forall x, exists z, rgram 0 z [TNum x] (RNum x)) as Nx.
    { intros x. destruct (rgram_down 0 5 ENone [TNum x] (RNum x)) as (z' & G' & _); [lia|lia|apply rg_num|now exists z']. }
    destruct (Nx a) as (za & Ga), (Nx b) as (zb & Gb).
    apply rg_tuple. eapply ra_more; [eassumption|]. eapply ra_one; eassumption. }
  exists (ts ++ TPunct "[" :: (TPunct "(" :: ([TNum a] ++ TPunct "," :: [TNum b]) ++ [TPunct ")"]) ++ [TPunct "]"])%list, ENone. split.
  - eapply rg_index; eassumption.
  - intros rest Hr. rewrite sapp_assoc, K by reflexivity.
    change (("[(" ++ a ++ ", " ++ b ++ ")]") ++ rest) with ("[" ++ "(" ++ (a ++ ", " ++ b ++ ")]") ++ rest).
    rewrite !sapp_assoc, (rlex_single "["), (rlex_single "("), rlex_number by (assumption || reflexivity).
    rewrite rlex_comma, rlex_number by (assumption || reflexivity).
    change (")]" ++ rest) with (")" ++ "]" ++ rest). rewrite (rlex_single ")"), (rlex_single "]") by reflexivity. now rewrite <- app_assoc.
Qed.
Lemma rwritten_cast s t f b : rs_name f -> rwritten 3 b s t -> rwritten 3 true (s ++ " as " ++ f) (RCast t [f]).
Proof.
  intros N (ts & z & (S & K) & G & _). exists (ts ++ TWord "as" :: [TWord f])%list, EType. split; [split|split; [|discriminate]].
  - now apply rstarts_app.
  - intros rest Hr. rewrite !sapp_assoc, K by reflexivity.
    change (rlex (" as " ++ f ++ rest)) with (TWord "as" :: rlex (f ++ rest))%list.
    rewrite rlex_word by (assumption || now apply rstops_weak). now rewrite <- app_assoc.
  - eapply rg_as; [eassumption|]. constructor. now apply rs_name_keyword.
Qed.
Lemma rwritten_if c a b x y z zc za zb : rwritten 0 zc c x -> rwritten 0 za a y -> rwritten 0 zb b z ->
  rwritten 5 false ("if " ++ c ++ " { " ++ a ++ " } else { " ++ b ++ " }") (RIf x y z).
Proof.
  intros (t1 & z1 & (S1 & K1) & G1 & _) (t2 & z2 & (S2 & K2) & G2 & _) (t3 & z3 & (S3 & K3) & G3 & _).
  exists (TWord "if" :: t1 ++ TPunct "{" :: t2 ++ TPunct "}" :: TWord "else" :: TPunct "{" :: t3 ++ [TPunct "}"])%list, ENone.
  split; [split; [reflexivity|]|split; [eapply rg_if; eassumption|discriminate]].
  intros rest Hr. rewrite !sapp_assoc.
  change (rlex ("if " ++ c ++ " { " ++ a ++ " } else { " ++ b ++ " }" ++ rest)) with
    (TWord "if" :: rlex (c ++ " { " ++ a ++ " } else { " ++ b ++ " }" ++ rest))%list.
  rewrite K1 by reflexivity.
  change (rlex (" { " ++ a ++ " } else { " ++ b ++ " }" ++ rest)) with (TPunct "{" :: rlex (a ++ " } else { " ++ b ++ " }" ++ rest))%list.
  rewrite K2 by reflexivity.
  change (rlex (" } else { " ++ b ++ " }" ++ rest)) with (TPunct "}" :: TWord "else" :: TPunct "{" :: rlex (b ++ " }" ++ rest))%list.
  rewrite K3 by reflexivity.
  change (rlex (" }" ++ rest)) with (rlex ("}" ++ rest)). rewrite (rlex_single "}") by reflexivity.
  cbn. rewrite <- !app_assoc. cbn. rewrite <- !app_assoc. cbn. now rewrite <- app_assoc.
Qed.
Lemma rwritten_constant c : rwritten 5 false (rs_constant c) (RId ["std"; "f64"; "consts"; match c with SEuler => "E" | SPi => "PI" end]).
Proof.
  exists [TWord "std"; TPunct "::"; TWord "f64"; TPunct "::"; TWord "consts"; TPunct "::"; TWord (match c with SEuler => "E" | SPi => "PI" end)], ENone.
  split; [split|split; [|discriminate]].
  - now destruct c.
  - intros rest Hr.
    assert (rhalts (match c with SEuler => "E" | SPi => "PI" end) rest) as H.
    { destruct rest as [|x rest]; [exact Logic.I|]. cbn [rhalts rstops] in *. clear -Hr.
      destruct c; destruct x as [[] [] [] [] [] [] [] []]; cbv in Hr |- *; auto; discriminate. }
    transitivity ([TWord "std"; TPunct "::"; TWord "f64"; TPunct "::"; TWord "consts"; TPunct "::"] ++ rs_lex_from (match c with SEuler => "E" | SPi => "PI" end) rest)%list.
    + destruct c; reflexivity.
    + rewrite rlex_halt by assumption. now destruct c.
  - apply rg_id. destruct c; repeat (apply rp_more; [reflexivity|]); now apply rp_one.
Qed.

Section Text.
  Variables (ftext : load_src -> string) (custom : string -> bool) (borrows : string -> nat -> bool).
  Notation text := (rs_text ftext custom borrows).
  Notation lvl := (rs_level ftext).
  Notation fit := (rs_fits ftext borrows).

  Lemma rlevel_le5 e : lvl e <= 5.
  Proof.
    destruct e as [| | | |z|l| | |[|? [|? ?]]|[|? [|? ?]]| | | | | |f l|f [|] l|]; cbn; try lia.
    - destruct (z <? 0)%Z; lia.
    - destruct (minus_sign (ftext l)); lia.
    - destruct f; lia.
  Qed.

  Definition rmeans (t : rexp) (e : ast) : Prop :=
    forall R M, rs_faithful ftext R M -> rs_eval R t = value_of M e.
  Definition rwell (e : ast) (t : rexp) : Prop :=
    rwritten (lvl e) (ends_type e) (text e) t /\ (rs_object e = true -> rprimary (text e) t) /\ rmeans t e.
  Lemma rwell_at n e t : rwell e t -> n <= lvl e -> rwritten n (ends_type e) (text e) t.
  Proof. intros (W & _) L. exact (rwritten_down n (lvl e) _ _ _ L (rlevel_le5 e) W). Qed.
  Lemma rwell_any e t : rwell e t -> rwritten 0 (ends_type e) (text e) t.
  Proof. intros W. apply rwell_at; [assumption|lia]. Qed.

  (** Sums and products. *)
  Lemma rconcat_merge sep a b l : String.concat sep (a :: b :: l) = String.concat sep ((a ++ sep ++ b) :: l).
  Proof. destruct l as [|c l]; [reflexivity|]. cbn [String.concat]. now rewrite !sapp_assoc. Qed.
  Lemma last_default (x y : bool) l : last l x = last (x :: l) y.
  Proof. revert x y. induction l as [|z l IH]; intros x y; [reflexivity|]. rewrite <- (IH z x). cbn [last]. now rewrite (IH z y). Qed.
  Lemma rjoin_written n o l ts : In o (rs_binops n) -> is_in o ["+"; "-"; "*"; "/"] = true ->
    Forall2 (fun e t => rwritten (S n) (ends_type e) (text e) t) l ts ->
    forall b0 s0 t0, rwritten n b0 s0 t0 ->
      rwritten n (last (map ends_type l) b0) (join (" " ++ o ++ " ") (s0 :: map text l)) (fold_left (RBin o) ts t0).
  Proof.
    intros Io Ip H. induction H as [|e t l ts He H IH]; intros b0 s0 t0 W; [exact W|].
    cbn [map]. unfold join. rewrite rconcat_merge. cbn [fold_left].
    replace (last (ends_type e :: map ends_type l) b0) with (last (map ends_type l) (ends_type e)).
    2:{ apply last_default. }
    apply IH. rewrite !sapp_assoc. eapply rwritten_op; eassumption.
  Qed.
  Lemma rchain_means R o l ts (h : RV R -> RV R -> RV R) M : (forall a b, r_bin R o a b = h a b) ->
    Forall2 (fun e t => rs_eval R t = value_of M e) l ts ->
    forall t0, rs_eval R (fold_left (RBin o) ts t0) = chain h (rs_eval R t0) (map (value_of M) l).
  Proof.
    intros Hg H. induction H as [|e t l ts Ht _ IH]; intros t0; [reflexivity|]. cbn [fold_left map chain].
    rewrite IH. cbn [rs_eval]. now rewrite Hg, Ht.
  Qed.
  (** Trees for a list of operands. *)
  Lemma rwells l : Forall (fun e => fit e -> exists t, rwell e t) l -> Forall fit l -> exists ts, Forall2 rwell l ts.
  Proof.
    induction l as [|e l IH]; intros H F; [exists []; constructor|].
    apply Forall_cons_iff in H as [He H]. apply Forall_cons_iff in F as [Fe F].
    destruct (He Fe) as [t Ht], (IH H F) as [ts Hts]. exists (t :: ts). now constructor.
  Qed.
  Lemma rwells_written n l ts : Forall2 rwell l ts -> Forall (fun x => n <= lvl x) l ->
    Forall2 (fun e t => rwritten n (ends_type e) (text e) t) l ts.
  Proof.
    intros H. induction H as [|e t l ts W _ IH]; intros L; constructor.
    - apply rwell_at; auto. now apply Forall_cons_iff in L as [L _].
    - apply IH. now apply Forall_cons_iff in L as [_ L].
  Qed.
  Lemma rwells_eval R M l ts : rs_faithful ftext R M -> Forall2 rwell l ts -> Forall2 (fun e t => rs_eval R t = value_of M e) l ts.
  Proof. intros FF H. induction H as [|e t l ts (_ & _ & E) _ IH]; constructor; auto. Qed.
  (** The arguments of an external function, some of them borrowed. *)
  Lemma rwells_args f l ts : Forall2 rwell l ts -> forall i,
    (forall j a, nth_error l j = Some a -> borrows f (i + j) = true -> 4 <= lvl a) ->
    exists us, Forall2 rargument (map_from (rs_borrow custom borrows f) i (map (fun e => (e, text e)) l)) us /\
      forall R M, rs_faithful ftext R M -> map (rs_eval R) us = map (value_of M) l.
  Proof.
    intros H. induction H as [|e t l ts W _ IH]; intros i B; [exists []; split; [constructor|reflexivity]|].
    destruct (IH (S i)) as (us & A & V).
    { intros j a Ja Bj. apply (B (S j) a Ja). now rewrite Nat.add_succ_r. }
    assert (exists u, rargument (rs_borrow custom borrows f i (e, text e)) u /\
      forall R M, rs_faithful ftext R M -> rs_eval R u = value_of M e) as (u & Au & Vu).
    { unfold rs_borrow. cbn [fst snd].
      assert (exists u, rargument (text e) u /\ forall R M, rs_faithful ftext R M -> rs_eval R u = value_of M e) as P.
      { exists t. split; [eapply rwritten_argument; now apply rwell_any|]. apply W. }
      destruct (custom_argument custom e); [exact P|]. destruct (borrows f i) eqn:Bi; [|exact P].
      exists (RUn "&" t). split.
      - eapply rborrowed. apply rwell_at; [exact W|]. apply (B 0 e eq_refl). now rewrite Nat.add_0_r.
      - intros R M FF. cbn. rewrite (s_borrow _ _ _ FF). now apply W. }
    exists (u :: us). split; [now constructor|]. intros R M FF. cbn. now rewrite (Vu R M FF), (V R M FF).
  Qed.

  Lemma method_name f : rs_name (rs_method_name f).
  Proof. destruct f; repeat split. Qed.
  Lemma no_args : rwritten_args "" [].
  Proof. apply (rwritten_args_of [] []). constructor. Qed.
  Lemma one_arg a x b : rwritten 0 b a x -> rwritten_args a [x].
  Proof. intros W. apply (rwritten_args_of [a] [x]). constructor; [eapply rwritten_argument; exact W|constructor]. Qed.
  Lemma std_method s x b f a l : rwritten 0 b s x -> rwritten_args a l ->
    rprimary ("(" ++ s ++ ")." ++ rs_method_name f ++ "(" ++ a ++ ")") (RMethod x (rs_method_name f) l).
  Proof.
    intros W A. replace ("(" ++ s ++ ")." ++ rs_method_name f ++ "(" ++ a ++ ")") with (("(" ++ s ++ ")") ++ "." ++ rs_method_name f ++ "(" ++ a ++ ")")
      by now rewrite !sapp_assoc.
    apply rprimary_method; [apply method_name|eapply rprimary_paren; exact W|assumption].
  Qed.
  Lemma zero_number : rwritten 5 false "0.0f64" (RNum "0.0f64").
  Proof. apply rwritten_number. split; reflexivity. Qed.

  Theorem rfits_well : forall e, fit e -> exists t, rwell e t.
  Proof.
    assert (forall e t, lvl e = 5 -> rprimary (text e) t -> rmeans t e -> exists t, rwell e t) as Prim.
    { intros e t L Pr Me. exists t. split; [rewrite L; now apply rprimary_written|]. now split. }
    assert (forall e t, rwritten (lvl e) (ends_type e) (text e) t -> rs_object e = false -> rmeans t e -> exists t, rwell e t) as Plain.
    { intros e t W O Me. exists t. split; [assumption|]. split; [congruence|assumption]. }
    induction e as [s|s m|a r c IH|a f IH|z|l|b|c|l IH|l IH|a b IHa IHb|a IH|r a b IHa IHb|c a b IHc IHa IHb|t a IH|f l IH|f b l IH|a IH]
      using ast_ind'; intros F; inversion F; subst; clear F;
      repeat match goal with
      | H : fit ?a -> _, H' : fit ?a |- _ => specialize (H H')
      end.
    - apply (Prim _ (RId [s])); [reflexivity|now apply rprimary_name|]. intros R M FF. apply (s_var _ _ _ FF).
    - apply (Prim _ (RId [s])); [reflexivity|now apply rprimary_name|]. intros R M FF. apply (s_arg _ _ _ FF).
    - (* element *)
      destruct IH as (t & _ & Pr & Me). specialize (Pr ltac:(assumption)).
      assert (rprimary (text a ++ "[(" ++ dec_nat r ++ ", " ++ dec_nat c ++ ")]") (RIndex t (RTuple [RNum (dec_nat r); RNum (dec_nat c)]))) as P1.
      { apply rprimary_index; auto using rnat_number. }
      assert (rprimary (text a ++ ".get(" ++ dec_nat r ++ ", " ++ dec_nat c ++ ")") (RMethod t "get" [RNum (dec_nat r); RNum (dec_nat c)])) as P2.
      { replace (text a ++ ".get(" ++ dec_nat r ++ ", " ++ dec_nat c ++ ")") with (text a ++ "." ++ "get" ++ "(" ++ String.concat ", " [dec_nat r; dec_nat c] ++ ")")
          by (cbn [String.concat append]; now rewrite !sapp_assoc).
        apply rprimary_method; [repeat split|assumption|]. apply rwritten_args_of. repeat constructor; apply rnumber_argument, rnat_number. }
      assert (rmeans (RIndex t (RTuple [RNum (dec_nat r); RNum (dec_nat c)])) (AElem a r c)) as M1.
      { intros R M FF. cbn. rewrite (Me R M FF). apply (s_index _ _ _ FF). }
      assert (rmeans (RMethod t "get" [RNum (dec_nat r); RNum (dec_nat c)]) (AElem a r c)) as M2.
      { intros R M FF. cbn. rewrite (Me R M FF). apply (s_get _ _ _ FF). }
      destruct a; try (eapply Prim; [reflexivity|exact P1|exact M1]). eapply Prim; [reflexivity|exact P2|exact M2].
    - (* field *)
      destruct IH as (t & _ & Pr & Me). apply (Prim _ (RField t f)); [reflexivity| |].
      + apply rprimary_field; auto.
      + intros R M FF. cbn. rewrite (Me R M FF). apply (s_field _ _ _ FF).
    - (* integer *)
      destruct (z <? 0)%Z eqn:Z0.
      + apply Z.ltb_lt in Z0. apply (Plain _ (RUn "-" (RNum (dec (- z) ++ "i64")))); [|reflexivity|].
        * cbn [rs_level rs_text ends_type]. replace (z <? 0)%Z with true by (symmetry; now apply Z.ltb_lt). rewrite dec_neg by assumption.
          rewrite sapp_assoc. apply (rwritten_minus _ _ false). apply (rwritten_down 4 5); [lia|lia|]. apply rwritten_number, rdec_number; [lia|reflexivity].
        * intros R M FF. cbn. rewrite (s_minus_int _ _ _ FF) by lia. now rewrite Z.opp_involutive.
      + apply (Plain _ (RNum (dec z ++ "i64"))); [|reflexivity|].
        * cbn [rs_level rs_text ends_type]. rewrite Z0. apply rwritten_number, rdec_number; [|reflexivity]. apply Z.ltb_ge in Z0. lia.
        * intros R M FF. cbn. apply (s_int _ _ _ FF). apply Z.ltb_ge in Z0. lia.
    - (* float *)
      match goal with H : _ \/ _ |- _ => destruct H as [E|E] end.
      + apply (Plain _ (RNum (ftext l ++ "f64"))); [|reflexivity|].
        * cbn [rs_level rs_text ends_type]. replace (minus_sign (ftext l)) with false; [apply rwritten_number; now rewrite E|].
          rewrite E. destruct s as [|c s]; [reflexivity|]. destruct H0 as [D _]. cbn. symmetry. clear -D.
          destruct c as [[] [] [] [] [] [] [] []]; cbv in D |- *; auto; discriminate.
        * intros R M FF. cbn. apply (s_float _ _ _ FF); [reflexivity|]. now rewrite E.
      + apply (Plain _ (RUn "-" (RNum (s ++ "f64")))); [|reflexivity|].
        * cbn [rs_level rs_text ends_type]. rewrite E. cbn [minus_sign append Ascii.eqb Bool.eqb]. apply (rwritten_minus (s ++ "f64") _ false).
          apply (rwritten_down 4 5); [lia|lia|]. now apply rwritten_number.
        * intros R M FF. cbn. now apply (s_minus_float _ _ _ FF).
    - apply (Plain _ (RBool b)); [apply rwritten_bool|reflexivity|]. intros R M FF. apply (s_bool _ _ _ FF).
    - (* constant *)
      eapply Plain; [apply rwritten_constant|reflexivity|]. intros R M FF. destruct c; [apply (s_e _ _ _ FF)|apply (s_pi _ _ _ FF)].
    - (* sum *)
      destruct (rwells _ IH) as (ts & Hts); [now constructor|]. inversion Hts as [|? t0 ? ts' W0 Wt]; subst.
      apply (Plain _ (fold_left (RBin "+") ts' t0)); [|reflexivity|].
      + cbn [rs_level rs_text map ends_type].
        rewrite <- last_default. pose proof (rjoin_written 1 "+" (b :: t) ts') as J. cbn [append map] in J. apply J; clear J; cbn; auto.
        * apply (rwells_written 2 (b :: t)); auto.
        * now apply rwell_at.
      + intros R M FF. cbn [value_of]. rewrite (rchain_means R "+" (b :: t) ts' (m_add M) M (s_add _ _ _ FF)) by (eapply rwells_eval; eauto).
        f_equal. now apply W0.
    - (* product *)
      destruct (rwells _ IH) as (ts & Hts); [now constructor|]. inversion Hts as [|? t0 ? ts' W0 Wt]; subst.
      apply (Plain _ (fold_left (RBin "*") ts' t0)); [|reflexivity|].
      + cbn [rs_level rs_text map ends_type].
        rewrite <- last_default. pose proof (rjoin_written 2 "*" (b :: t) ts') as J. cbn [append map] in J. apply J; clear J; cbn; auto.
        * apply (rwells_written 3 (b :: t)); auto.
        * now apply rwell_at.
      + intros R M FF. cbn [value_of]. rewrite (rchain_means R "*" (b :: t) ts' (m_mul M) M (s_mul _ _ _ FF)) by (eapply rwells_eval; eauto).
        f_equal. now apply W0.
    - (* quotient *)
      destruct IHa as (x & Wx), IHb as (y & Wy). apply (Plain _ (RBin "/" x y)); [|reflexivity|].
      + cbn [rs_level rs_text ends_type]. apply (rwritten_op 2 _ _ x y "/" (ends_type a)); cbn; auto; now apply rwell_at.
      + intros R M FF. cbn. destruct Wx as (_ & _ & Ex), Wy as (_ & _ & Ey). rewrite (Ex R M FF), (Ey R M FF). apply (s_div _ _ _ FF).
    - (* minus *)
      destruct IH as (x & Wx). apply (Plain _ (RUn "-" x)); [|reflexivity|].
      + cbn [rs_level rs_text ends_type]. eapply rwritten_minus. now apply rwell_at.
      + intros R M FF. cbn. destruct Wx as (_ & _ & Ex). rewrite (Ex R M FF). apply (s_neg _ _ _ FF).
    - (* comparison *)
      destruct IHa as (x & Wx), IHb as (y & Wy). apply (Plain _ (RBin (rs_operator r) x y)); [|reflexivity|].
      + cbn [rs_level rs_text ends_type].
        replace ("(" ++ text a ++ ") " ++ relational_string r ++ " (" ++ text b ++ ")") with
          (("(" ++ text a ++ ")") ++ " " ++ rs_operator r ++ " " ++ ("(" ++ text b ++ ")")) by (destruct r; cbn [relational_string rs_operator]; now rewrite !sapp_assoc).
        assert (forall e u, rwell e u -> rwritten 1 false ("(" ++ text e ++ ")") u) as P.
        { intros e u W. apply (rwritten_down 1 5); [lia|lia|]. apply rprimary_written. eapply rprimary_paren. now apply rwell_any. }
        apply (rwritten_cmp _ _ x y _ false); auto. now destruct r.
      + intros R M FF. cbn. destruct Wx as (_ & _ & Ex), Wy as (_ & _ & Ey). rewrite (Ex R M FF), (Ey R M FF). apply (s_cmp _ _ _ FF).
    - (* selection *)
      destruct IHc as (z & Wz), IHa as (x & Wx), IHb as (y & Wy).
      apply (Plain _ (RIf z x y)); [|reflexivity|].
      + cbn [rs_level rs_text ends_type]. eapply rwritten_if; apply rwell_any; eassumption.
      + intros R M FF. cbn. destruct Wx as (_ & _ & Ex), Wy as (_ & _ & Ey), Wz as (_ & _ & Ez).
        rewrite (Ex R M FF), (Ey R M FF), (Ez R M FF). apply (s_cond _ _ _ FF).
    - (* conversion *)
      destruct IH as (x & Wx). apply (Plain _ (RCast x [rs_type_name t])); [|reflexivity|].
      + cbn [rs_level rs_text ends_type].
        replace ("(" ++ text a ++ ") as " ++ rs_type t) with (("(" ++ text a ++ ")") ++ " as " ++ rs_type_name t) by (destruct t; now rewrite !sapp_assoc).
        apply (rwritten_cast _ _ _ false); [destruct t; repeat split|]. apply (rwritten_down 3 5); [lia|lia|]. apply rprimary_written.
        eapply rprimary_paren. now apply rwell_any.
      + intros R M FF. cbn. destruct Wx as (_ & _ & Ex). rewrite (Ex R M FF). apply (s_cast _ _ _ FF).
    - (* function of the library *)
      destruct (rwells _ IH) as (ts & Hts); [assumption|].
      match goal with H : length _ = arguments _ |- _ => rename H into Len end.
      assert (arguments f = 2 \/ f = F_floor \/ f = F_signum \/ (f <> F_signum /\ f <> F_floor /\ arguments f = 1)) as [A2|[->|[->|(N1 & N2 & A1)]]].
      { destruct f; cbn; auto; right; right; right; repeat split; discriminate. }
      + rewrite A2 in Len. destruct l as [|a [|b [|? ?]]]; try discriminate Len.
        inversion Hts as [|? x ? ? Wx Hts']; subst. inversion Hts' as [|? y ? ? Wy Hts2]; subst. inversion Hts2; subst.
        apply (Plain _ (RMethod x (rs_method_name f) [y])); [|reflexivity|].
        * replace (text (AStd f [a; b])) with ("(" ++ text a ++ ")." ++ rs_method_name f ++ "(" ++ text b ++ ")") by (destruct f; reflexivity || discriminate).
          replace (lvl (AStd f [a; b])) with 5 by (destruct f; reflexivity || discriminate).
          apply rprimary_written. eapply std_method; [now apply rwell_any|]. eapply one_arg. now apply rwell_any.
        * intros R M FF. cbn. destruct Wx as (_ & _ & Ex), Wy as (_ & _ & Ey). rewrite (Ex R M FF), (Ey R M FF). now apply (s_std2 _ _ _ FF).
      + destruct l as [|a [|? ?]]; try discriminate Len. inversion Hts as [|? x ? ? Wx Hts']; subst. inversion Hts'; subst.
        apply (Plain _ (RCast (RMethod x "floor" []) ["i64"])); [|reflexivity|].
        * cbn [rs_level rs_text rs_std map arg0 nth ends_type].
          replace ("(" ++ text a ++ ").floor() as i64") with (("(" ++ text a ++ ")." ++ "floor" ++ "(" ++ "" ++ ")") ++ " as " ++ "i64") by now rewrite !sapp_assoc.
          apply (rwritten_cast _ _ _ false); [repeat split|]. apply (rwritten_down 3 5); [lia|lia|]. apply rprimary_written.
          apply (std_method _ _ (ends_type a) F_floor); [now apply rwell_any|apply no_args].
        * intros R M FF. cbn. destruct Wx as (_ & _ & Ex). rewrite (Ex R M FF). apply (s_floor _ _ _ FF).
      + destruct l as [|a [|? ?]]; try discriminate Len. inversion Hts as [|? x ? ? Wx Hts']; subst. inversion Hts'; subst.
        match goal with H : F_signum = F_signum -> _ |- _ => specialize (H eq_refl); apply Forall_cons_iff in H as [[La Ea] _] end.
        apply (Plain _ (RBin "-" (RCast (RBin "<" (RNum "0.0f64") x) ["i64"]) (RCast (RBin "<" x (RNum "0.0f64")) ["i64"]))); [|reflexivity|].
        * cbn [rs_level rs_text rs_std map arg0 nth ends_type].
          replace ("(0.0f64 < " ++ text a ++ ") as i64 - (" ++ text a ++ " < 0.0f64) as i64") with
            ((("(" ++ ("0.0f64" ++ " " ++ "<" ++ " " ++ text a) ++ ")") ++ " as " ++ "i64") ++ " " ++ "-" ++ " " ++
             (("(" ++ (text a ++ " " ++ "<" ++ " " ++ "0.0f64") ++ ")") ++ " as " ++ "i64")) by now rewrite !sapp_assoc.
          pose proof (rwell_at 1 a x Wx La) as Wa. rewrite Ea in Wa.
          pose proof (rwritten_down 1 5 _ _ _ ltac:(lia) ltac:(lia) zero_number) as W0.
          assert (forall s u, rwritten 0 false s u -> rwritten 3 true (("(" ++ s ++ ")") ++ " as " ++ "i64") (RCast u ["i64"])) as P.
          { intros s u W. apply (rwritten_cast _ _ _ false); [repeat split|]. apply (rwritten_down 3 5); [lia|lia|]. apply rprimary_written.
            eapply rprimary_paren; exact W. }
          apply (rwritten_op 1 _ _ _ _ "-" true); cbn [rs_binops In]; auto.
          -- apply (rwritten_down 1 3); [lia|lia|]. apply P. now apply (rwritten_cmp _ _ _ _ "<" false).
          -- apply (rwritten_down 2 3); [lia|lia|]. apply P. now apply (rwritten_cmp _ _ _ _ "<" false).
        * intros R M FF. cbn. destruct Wx as (_ & _ & Ex). rewrite (Ex R M FF). apply (s_signum _ _ _ FF).
      + rewrite A1 in Len. destruct l as [|a [|? ?]]; try discriminate Len. inversion Hts as [|? x ? ? Wx Hts']; subst. inversion Hts'; subst.
        apply (Plain _ (RMethod x (rs_method_name f) [])); [|reflexivity|].
        * replace (text (AStd f [a])) with ("(" ++ text a ++ ")." ++ rs_method_name f ++ "(" ++ "" ++ ")")
            by (destruct f; try reflexivity; try discriminate; congruence).
          replace (lvl (AStd f [a])) with 5 by (destruct f; reflexivity || congruence).
          apply rprimary_written. eapply std_method; [now apply rwell_any|apply no_args].
        * intros R M FF. cbn. destruct Wx as (_ & _ & Ex). rewrite (Ex R M FF). now apply (s_std1 _ _ _ FF).
    - (* external function *)
      destruct (rwells _ IH) as (ts & Hts); [assumption|].
      destruct (rwells_args f l ts Hts 0) as (us & A & V); [assumption|].
      pose proof (rprimary_call f _ us ltac:(assumption) (rwritten_args_of _ _ A)) as Pc.
      destruct b.
      + apply (Plain _ (RCast (RCall (RId [f]) us) ["f64"])); [|reflexivity|].
        * cbn [rs_level rs_text ends_type].
          match goal with |- rwritten _ _ (f ++ "(" ++ ?s ++ ")" ++ " as f64") _ => replace (f ++ "(" ++ s ++ ")" ++ " as f64") with ((f ++ "(" ++ s ++ ")") ++ " as " ++ "f64") by now rewrite !sapp_assoc end.
          apply (rwritten_cast _ _ _ false); [repeat split|]. apply (rwritten_down 3 5); [lia|lia|]. now apply rprimary_written.
        * intros R M FF. cbn. rewrite (V R M FF). apply (s_ext_float _ _ _ FF).
      + apply (Prim _ (RCall (RId [f]) us)); [reflexivity| |].
        * cbn [rs_text]. rewrite sapp_nil. exact Pc.
        * intros R M FF. cbn. rewrite (V R M FF). apply (s_ext _ _ _ FF).
    - (* parentheses *)
      destruct IH as (x & Wx). apply (Prim _ x); [reflexivity| |apply Wx].
      eapply rprimary_paren. now apply rwell_any.
  Qed.

  Theorem rs_text_reads e : fit e -> exists t, rs_reads (text e) t /\ rmeans t e.
  Proof.
    intros F. destruct (rfits_well e F) as (t & W). exists t. split; [|apply W]. eapply rwritten_reads. now apply rwell_any.
  Qed.
End Text.
