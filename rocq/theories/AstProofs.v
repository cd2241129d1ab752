(** The text of a tree that fits is read as the tree. *)
From Coq Require Import String Ascii List Arith ZArith Bool Lia DecimalString Decimal.
From Verif Require Import Outcome IrModel AstModel CppSpec CppParse AstSpec.
Import ListNotations.
Open Scope string_scope.
Open Scope nat_scope.

Lemma sapp_assoc (a b c : string) : ((a ++ b) ++ c = a ++ (b ++ c))%string.
Proof. induction a as [|x a IH]; cbn; [reflexivity|]. now rewrite IH. Qed.
Lemma sapp_nil (a : string) : (a ++ "" = a)%string.
Proof. induction a as [|x a IH]; cbn; [reflexivity|]. now rewrite IH. Qed.

(** ** Tokens *)
Definition halts (w rest : string) : Prop := match rest with EmptyString => True | String c _ => extends w c = false end.

Lemma lex_halt w rest : halts w rest -> lex_from w rest = (token_of w ++ lex_from "" rest)%list.
Proof.
  destruct rest as [|c r]; cbn [halts lex_from].
  - intros _. cbn. now rewrite app_nil_r.
  - intros ->. reflexivity.
Qed.
Lemma lex_grow t : forall w rest, one_token w t = true -> lex_from w (t ++ rest) = lex_from (w ++ t) rest.
Proof.
  induction t as [|c t IH]; intros w rest H; cbn in H |- *; [now rewrite sapp_nil|].
  apply andb_true_iff in H as [H1 H2]. rewrite H1, IH by assumption. unfold snoc. now rewrite sapp_assoc.
Qed.
Lemma lex_one c t rest : is_space c = false -> one_token (String c "") t = true -> halts (String c t) rest ->
  lex_from "" (String c t ++ rest) = (token_of (String c t) ++ lex_from "" rest)%list.
Proof.
  intros S O H. cbn [append lex_from extends]. rewrite S. cbn [token_of app].
  rewrite lex_grow by assumption. cbn [append]. now apply lex_halt.
Qed.
Lemma lex_space rest : lex_from "" (" " ++ rest) = lex_from "" rest.
Proof. reflexivity. Qed.

Lemma identifier_kw s : identifier s -> is_in s keywords = false.
Proof. destruct s; [intros []|]. now intros (_ & _ & K). Qed.
Lemma word_not_space c : is_word_char c = true -> is_space c = false.
Proof. destruct c as [[] [] [] [] [] [] [] []]; cbv; auto. Qed.
Lemma word_token t : forall w c, is_letter c = true -> all_chars is_word_char t = true ->
  one_token (String c w) t = true.
Proof.
  induction t as [|x t IH]; intros w c L A; cbn in A |- *; [reflexivity|].
  apply andb_true_iff in A as [A1 A2]. rewrite L, A1. cbn [andb]. now apply IH.
Qed.
(** Characters that may follow the text of an expression. *)
Definition follows (b : bool) (rest : string) : Prop :=
  match rest with
  | EmptyString => True
  | String c _ => c = " "%char \/ c = ")"%char \/ c = ","%char \/ (b = true /\ (c = "("%char \/ c = "."%char))
  end.
Lemma follows_weak rest : follows false rest -> follows true rest.
Proof. destruct rest as [|c r]; cbn; [auto|]. intros [->|[->|[->|[E _]]]]; auto. discriminate. Qed.
Lemma follows_any b rest : follows false rest -> follows b rest.
Proof. destruct b; auto using follows_weak. Qed.

Lemma lex_word s rest : identifier s -> follows true rest ->
  lex_from "" (s ++ rest) = (TWord s :: lex_from "" rest)%list.
Proof.
  destruct s as [|c t]; [intros []|]. intros (L & A & K) F.
  rewrite lex_one.
  - cbn [token_of]. now rewrite L.
  - apply word_not_space. unfold is_word_char. now rewrite L.
  - now apply word_token.
  - destruct rest as [|x r]; [exact I|]. cbn [halts extends]. rewrite L.
    destruct F as [->|[->|[->|[_ [->| ->]]]]]; reflexivity.
Qed.
Lemma digit_not_letter c : is_digit c = true -> is_letter c = false.
Proof. destruct c as [[] [] [] [] [] [] [] []]; cbv; auto; discriminate. Qed.
Lemma lex_number s rest : number s -> follows false rest ->
  lex_from "" (s ++ rest) = (TNum s :: lex_from "" rest)%list.
Proof.
  destruct s as [|c t]; [intros []|]. intros (L & A) F.
  pose proof (digit_not_letter _ L) as NL.
  rewrite lex_one.
  - cbn [token_of]. now rewrite NL, L.
  - apply word_not_space. unfold is_word_char. rewrite L. apply orb_true_r.
  - assumption.
  - destruct rest as [|x r]; [exact I|]. cbn [halts extends]. rewrite NL, L. cbn [orb].
    destruct F as [->|[->|[->|[E _]]]]; try reflexivity. discriminate.
Qed.
Lemma lex_open rest : lex_from "" ("(" ++ rest) = (TPunct "(" :: lex_from "" rest)%list.
Proof. cbn [append lex_from extends is_space]. cbn [token_of app]. apply (lex_halt "("). now destruct rest. Qed.
Lemma lex_close rest : lex_from "" (")" ++ rest) = (TPunct ")" :: lex_from "" rest)%list.
Proof. apply (lex_halt ")"). now destruct rest. Qed.
Lemma lex_comma rest : lex_from "" (", " ++ rest) = (TPunct "," :: lex_from "" rest)%list.
Proof. exact (lex_halt "," (String " " rest) eq_refl). Qed.
Lemma lex_op o rest : is_in o ["+"; "-"; "*"; "/"; "<"; "<="; "=="; "?"; ":"] = true ->
  lex_from "" (" " ++ o ++ " " ++ rest) = (TPunct o :: lex_from "" rest)%list.
Proof.
  intros H. apply is_in_In in H. cbn in H.
  repeat destruct H as [H|H]; try contradiction; subst o; reflexivity.
Qed.
Lemma lex_static t p rest : type_string t = p -> lex_from "" ("static_cast<" ++ p ++ ">(" ++ rest) =
  (TWord "static_cast" :: TPunct "<" :: match t with NBool => [TWord "bool"] | NInt => [TWord "std"; TPunct "::"; TWord "int64_t"] | NFloat => [TWord "Scalar"] end
   ++ TPunct ">" :: TPunct "(" :: lex_from "" rest)%list.
Proof.
  intros <-. rewrite <- (lex_open rest). destruct t; reflexivity.
Qed.
Lemma lex_scalar rest : lex_from "" ("static_cast<Scalar>(" ++ rest) =
  (TWord "static_cast" :: TPunct "<" :: TWord "Scalar" :: TPunct ">" :: TPunct "(" :: lex_from "" rest)%list.
Proof. exact (lex_static NFloat _ rest eq_refl). Qed.
Lemma std_name f rest :
  lex_from "" ("std::" ++ f ++ "(" ++ rest) = (TWord "std" :: TPunct "::" :: lex_from "" (f ++ "(" ++ rest))%list \/
  ~ identifier f.
Proof.
  destruct f as [|c t]; [right; intros []|]. destruct (is_letter c) eqn:L; [|right; intros (L' & _); congruence].
  left.
  assert (extends "::" c = false) as E.
  { clear -L. destruct c as [[] [] [] [] [] [] [] []]; cbv in L |- *; auto; discriminate. }
  transitivity (TWord "std" :: lex_from "::" (String c t ++ "(" ++ rest))%list; [reflexivity|].
  now rewrite (lex_halt "::" (String c t ++ "(" ++ rest) E).
Qed.

(** ** Decimal numbers *)
Lemma digits_chars d : all_chars is_digit (NilEmpty.string_of_uint d) = true.
Proof. induction d; cbn; auto. Qed.
Lemma digits_token t : forall w c, is_digit c = true -> all_chars is_digit t = true -> one_token (String c w) t = true.
Proof.
  induction t as [|x t IH]; intros w c L A; cbn in A |- *; [reflexivity|].
  apply andb_true_iff in A as [A1 A2]. rewrite (digit_not_letter _ L), L. cbn [orb].
  unfold is_word_char. rewrite A1, orb_true_r. cbn [orb andb]. now apply IH.
Qed.
Lemma uint_number d : number (NilZero.string_of_uint d).
Proof.
  assert (forall s, s <> "" -> all_chars is_digit s = true -> number s) as H.
  { intros [|c t] N A; [congruence|]. cbn in A. apply andb_true_iff in A as [A1 A2]. split; [assumption|]. now apply digits_token. }
  destruct d; apply H; try discriminate; cbn; try apply digits_chars; reflexivity.
Qed.
Lemma dec_number z : (0 <= z)%Z -> number (dec z).
Proof.
  destruct z as [|p|p]; intros L.
  - exact (uint_number (Decimal.D0 Nil)).
  - exact (uint_number (Pos.to_uint p)).
  - lia.
Qed.
Lemma dec_neg z : (z < 0)%Z -> dec z = ("-" ++ dec (- z))%string.
Proof. destruct z as [|p|p]; intros L; try lia. reflexivity. Qed.
Lemma dec_nat_number n : number (dec_nat n).
Proof. apply dec_number. lia. Qed.

(** ** The grammar *)
Lemma gram_down n m ts t : n <= m -> m <= 8 -> gram m ts t -> gram n ts t.
Proof.
  intros L. induction L as [|m L IH]; intros B G; [assumption|]. apply IH; [lia|]. apply g_up; [lia|assumption].
Qed.
Lemma type_tokens t : path_tokens
  (match t with NBool => [TWord "bool"] | NInt => [TWord "std"; TPunct "::"; TWord "int64_t"] | NFloat => [TWord "Scalar"] end) (type_path t).
Proof. destruct t; repeat constructor. Qed.

Lemma level_le e : level e <= 8.
Proof.
  destruct e; cbn; try lia.
  - destruct (z <? 0)%Z; lia.
  - destruct l as [|? [|? ?]]; lia.
  - destruct l as [|? [|? ?]]; lia.
  - destruct r; lia.
  - destruct f; lia.
Qed.

(** How texts begin. *)
Definition opens (c : ascii) : bool := is_word_char c || Ascii.eqb c "(".
Definition first_char (s : string) : Prop := match s with EmptyString => False | String c _ => opens c = true end.
Lemma first_app s t : first_char s -> first_char (s ++ t).
Proof. destruct s; cbn; tauto. Qed.
Lemma number_first s : number s -> first_char s.
Proof. destruct s as [|c t]; cbn; [tauto|]. intros [D _]. unfold opens, is_word_char. now rewrite D, orb_true_r. Qed.
Lemma identifier_first s : identifier s -> first_char s.
Proof. destruct s as [|c t]; cbn; [tauto|]. intros [D _]. unfold opens, is_word_char. now rewrite D. Qed.
Lemma lex_minus s : first_char s -> lex_from "" ("-" ++ s) = (TPunct "-" :: lex_from "" s)%list.
Proof.
  destruct s as [|c t]; cbn [first_char]; [tauto|]. intros O.
  transitivity (lex_from "-" (String c t)); [reflexivity|]. apply (lex_halt "-").
  cbn [halts]. clear -O. destruct c as [[] [] [] [] [] [] [] []]; cbv in O |- *; auto; discriminate.
Qed.

Section AstInd.
  Variable P : ast -> Prop.
  Hypothesis HVar : forall s, P (AVar s).
  Hypothesis HArg : forall s m, P (AArg s m).
  Hypothesis HElem : forall a r c, P a -> P (AElem a r c).
  Hypothesis HField : forall a f, P a -> P (AField a f).
  Hypothesis HInt : forall z, P (AInt z).
  Hypothesis HFloat : forall l, P (AFloat l).
  Hypothesis HBool : forall b, P (ABool b).
  Hypothesis HSym : forall c, P (ASym c).
  Hypothesis HAdd : forall l, Forall P l -> P (AAdd l).
  Hypothesis HMul : forall l, Forall P l -> P (AMul l).
  Hypothesis HDiv : forall a b, P a -> P b -> P (ADiv a b).
  Hypothesis HNeg : forall a, P a -> P (ANeg a).
  Hypothesis HCmp : forall r a b, P a -> P b -> P (ACompare r a b).
  Hypothesis HTern : forall c a b, P c -> P a -> P b -> P (ATernary c a b).
  Hypothesis HCast : forall t a, P a -> P (ACast t a).
  Hypothesis HStd : forall f l, Forall P l -> P (AStd f l).
  Hypothesis HCall : forall f b l, Forall P l -> P (ACall f b l).
  Hypothesis HParen : forall a, P a -> P (AParen a).
  Fixpoint ast_ind' (e : ast) : P e :=
    let all := fix all (l : list ast) : Forall P l :=
      match l with [] => Forall_nil P | x :: r => Forall_cons x (ast_ind' x) (all r) end in
    match e with
    | AVar s => HVar s | AArg s m => HArg s m | AElem a r c => HElem a r c (ast_ind' a) | AField a f => HField a f (ast_ind' a)
    | AInt z => HInt z | AFloat l => HFloat l | ABool b => HBool b | ASym c => HSym c
    | AAdd l => HAdd l (all l) | AMul l => HMul l (all l) | ADiv a b => HDiv a b (ast_ind' a) (ast_ind' b)
    | ANeg a => HNeg a (ast_ind' a) | ACompare r a b => HCmp r a b (ast_ind' a) (ast_ind' b)
    | ATernary c a b => HTern c a b (ast_ind' c) (ast_ind' a) (ast_ind' b) | ACast t a => HCast t a (ast_ind' a)
    | AStd f l => HStd f l (all l) | ACall f b l => HCall f b l (all l) | AParen a => HParen a (ast_ind' a)
    end.
End AstInd.

Section Text.
  Variable span : bool.
  Variable ftext : load_src -> string.
  Variable C : cpp.
  Variable M : meaning (V C).
  Hypothesis FF : faithful span ftext C M.
  Notation text := (cpp_text span ftext).

  Definition good (e : ast) : Prop :=
    (exists ts t, gram (level e) ts t /\ ceval C t = value_of M e /\
       forall rest, follows (object e) rest -> lex_from "" (text e ++ rest) = (ts ++ lex_from "" rest)%list) /\
    (7 <= level e -> minus e = false -> first_char (text e)).

  (** The rest of a sum or product. *)
  Fixpoint tail_text (sep : string) (l : list ast) : string :=
    match l with [] => "" | x :: r => sep ++ text x ++ tail_text sep r end.
  Lemma join_tail sep a l : join sep (map text (a :: l)) = (text a ++ tail_text sep l)%string.
  Proof.
    revert a. induction l as [|b l IH]; intros a; [cbn; now rewrite sapp_nil|].
    change (join sep (map text (a :: b :: l))) with (text a ++ sep ++ join sep (map text (b :: l)))%string.
    now rewrite IH.
  Qed.
  Lemma chain_good n o l : In o (binops n) -> is_in o ["+"; "-"; "*"; "/"; "<"; "<="; "=="; "?"; ":"] = true ->
    Forall good l -> Forall (fun x => S n <= level x) l ->
    forall ts0 t0, gram n ts0 t0 ->
    exists ts t, gram n (ts0 ++ ts) t /\ ceval C t = chain (c_bin C o) (ceval C t0) (map (value_of M) l) /\
      forall rest, follows false rest ->
        lex_from "" (tail_text (" " ++ o ++ " ") l ++ rest) = (ts ++ lex_from "" rest)%list /\
        follows false (tail_text (" " ++ o ++ " ") l ++ rest).
  Proof.
    intros Io Ip. induction l as [|x l IH]; intros HG HL ts0 t0 G0.
    - exists [], t0. rewrite app_nil_r. repeat split; auto.
    - apply Forall_cons_iff in HG as [Gx HG]. apply Forall_cons_iff in HL as [Lx HL].
      destruct Gx as [(tx & ex & Gx & Vx & Lxx) _].
      destruct (IH HG HL (ts0 ++ TPunct o :: tx)%list (CBin o t0 ex)) as (ts & t & G & Vt & L).
      { apply g_bin; [assumption|assumption|]. apply (gram_down _ (level x)); auto using level_le. }
      exists (TPunct o :: tx ++ ts)%list, t. rewrite <- app_assoc in G. cbn [app] in G. repeat split; [assumption|..].
      + rewrite Vt. cbn. now rewrite Vx.
      + cbn [tail_text]. rewrite !sapp_assoc. rewrite lex_op by assumption.
        destruct (L rest H) as [L1 L2]. rewrite Lxx by now apply follows_any. rewrite L1. cbn. now rewrite app_assoc.
      + cbn. now left.
  Qed.
  Lemma list_good l : Forall good l -> l <> [] ->
    exists ts es, gram_args1 ts es /\ map (ceval C) es = map (value_of M) l /\
      forall rest, follows false rest -> lex_from "" (join ", " (map text l) ++ rest) = (ts ++ lex_from "" rest)%list.
  Proof.
    induction l as [|x l IH]; [congruence|]. intros HG _. apply Forall_cons_iff in HG as [Gx HG].
    destruct Gx as [(tx & ex & Gx & Vx & Lx) _].
    assert (gram 0 tx ex) as G0 by (apply (gram_down _ (level x)); auto using level_le; lia).
    destruct l as [|y l].
    - exists tx, [ex]. repeat split; [now constructor|cbn; now rewrite Vx|].
      intros rest F. cbn. apply Lx. now apply follows_any.
    - destruct (IH HG ltac:(discriminate)) as (ts & es & G & Vs & L).
      exists (tx ++ TPunct "," :: ts)%list, (ex :: es). repeat split; [now constructor|cbn [map]; now rewrite Vx, Vs|].
      intros rest F. rewrite join_tail. cbn [tail_text].
      rewrite !sapp_assoc. rewrite Lx by (apply follows_any; cbn; auto).
      rewrite lex_comma. specialize (L rest F). rewrite join_tail in L. rewrite sapp_assoc in L. rewrite L.
      now rewrite <- app_assoc.
  Qed.
  Lemma call_good f l : identifier f -> Forall good l ->
    exists ts es, gram 8 ts (CCall (CId [f]) es) /\ map (ceval C) es = map (value_of M) l /\
      forall rest, lex_from "" (f ++ "(" ++ join ", " (map text l) ++ ")" ++ rest) = (ts ++ lex_from "" rest)%list.
  Proof.
    intros If HG.
    assert (gram 8 [TWord f] (CId [f])) as Gf.
    { apply g_id. constructor. destruct f; [destruct If|apply If]. }
    destruct l as [|x l].
    - exists [TWord f; TPunct "("; TPunct ")"], []. split; [|split; [reflexivity|]].
      + apply (g_call [TWord f] []); [assumption|constructor].
      + intros rest. cbn [map join String.concat append]. rewrite lex_word by (assumption || (cbn; auto 6)).
        change (String "(" (String ")" rest)) with ("(" ++ ")" ++ rest)%string. rewrite lex_open, lex_close. reflexivity.
    - destruct (list_good (x :: l) HG ltac:(discriminate)) as (ts & es & G & Vs & L).
      exists (TWord f :: TPunct "(" :: ts ++ [TPunct ")"])%list, es. split; [|split; [assumption|]].
      + apply (g_call [TWord f]); [assumption|now constructor].
      + intros rest. rewrite lex_word by (assumption || (cbn; auto 6)). rewrite lex_open, L by (cbn; auto). rewrite lex_close.
        cbn. now rewrite <- app_assoc.
  Qed.
  (** A use of std. *)
  Lemma std_good s l : identifier s -> Forall good l -> l <> [] ->
    exists ts es, gram 8 ts (CCall (CId ["std"; s]) es) /\ map (ceval C) es = map (value_of M) l /\
      forall rest, lex_from "" ("std::" ++ s ++ "(" ++ join ", " (map text l) ++ ")" ++ rest) = (ts ++ lex_from "" rest)%list.
  Proof.
    intros Is HG Nl. destruct (list_good l HG Nl) as (ts & es & G & Vs & L).
    exists (TWord "std" :: TPunct "::" :: TWord s :: TPunct "(" :: ts ++ [TPunct ")"])%list, es. split; [|split; [assumption|]].
    - apply (g_call [TWord "std"; TPunct "::"; TWord s]); [|now constructor].
      apply g_id. constructor; [reflexivity|]. constructor. destruct s; [destruct Is|apply Is].
    - intros rest. destruct (std_name s (join ", " (map text l) ++ ")" ++ rest)) as [E|N]; [|tauto]. rewrite E.
      rewrite lex_word by (assumption || (cbn; auto 6)). rewrite lex_open, L by (cbn; auto). rewrite lex_close.
      cbn. now rewrite <- app_assoc.
  Qed.
  Lemma cast_good t e : good e ->
    exists ts x, gram 8 ts (CCast (type_path t) x) /\ ceval C x = value_of M e /\
      forall rest, lex_from "" ("static_cast<" ++ type_string t ++ ">(" ++ text e ++ ")" ++ rest) = (ts ++ lex_from "" rest)%list.
  Proof.
    intros [(ts & x & G & Vx & L) _].
    eexists (TWord "static_cast" :: TPunct "<" :: _ ++ TPunct ">" :: TPunct "(" :: ts ++ [TPunct ")"])%list, x. split; [|split; [assumption|]].
    - apply g_cast; [apply type_tokens|]. apply (gram_down _ (level e)); auto using level_le. lia.
    - intros rest. rewrite (lex_static t _ _ eq_refl). rewrite L by (apply follows_any; cbn; auto). rewrite lex_close.
      cbn. rewrite <- app_assoc. cbn. now rewrite <- app_assoc.
  Qed.

  Lemma function_identifier f : identifier (function_string f).
  Proof. destruct f; cbn; auto. Qed.

  Lemma arg_identifier s m : identifier s -> identifier (if m && span then "_" ++ s else s).
  Proof.
    destruct (m && span); [|auto]. destruct s as [|c t]; [intros []|]. intros (L & A & K). cbn. repeat split.
    now rewrite A, andb_true_r; unfold is_word_char; rewrite L.
  Qed.
  Lemma zero_good rest : lex_from "" ("static_cast<Scalar>(0)" ++ rest) =
    ([TWord "static_cast"; TPunct "<"; TWord "Scalar"; TPunct ">"; TPunct "("; TNum "0"; TPunct ")"] ++ lex_from "" rest)%list.
  Proof. change ("static_cast<Scalar>(0)" ++ rest)%string with ("static_cast<Scalar>(" ++ "0" ++ ")" ++ rest)%string.
    rewrite lex_scalar. rewrite (lex_number "0") by (cbn; auto). rewrite lex_close. reflexivity. Qed.
  Lemma zero_gram : gram 8 [TWord "static_cast"; TPunct "<"; TWord "Scalar"; TPunct ">"; TPunct "("; TNum "0"; TPunct ")"] (CCast scalar_t (CNum "0")).
  Proof.
    apply (g_cast [TWord "Scalar"] [TNum "0"]); [repeat constructor|]. apply (gram_down _ 8); [lia|lia|apply g_num].
  Qed.

  Lemma fits_good : forall e, fits ftext e -> good e.
  Proof.
    induction e as [s|s m|a r c IH|a f IH|z|l|b|c|l IH|l IH|a b IHa IHb|a IH|r a b IHa IHb|c a b IHc IHa IHb|t a IH|f l IH|f b l IH|a IH]
      using ast_ind'; intros F; inversion F; subst; clear F;
      repeat match goal with
      | H : fits _ ?a -> _, H' : fits _ ?a |- _ => specialize (H H')
      end.
    - (* variable *)
      split; [|intros _ _; now apply identifier_first].
      exists [TWord s], (CId [s]). repeat split.
      + apply g_id. constructor. now apply identifier_kw.
      + apply (f_var _ _ _ _ FF).
      + intros rest Fr. now apply lex_word.
    - (* argument *)
      assert (identifier (if m && span then "_" ++ s else s)) as I' by now apply arg_identifier.
      split; [|intros _ _; now apply identifier_first].
      exists [TWord (if m && span then "_" ++ s else s)%string], (CId [if m && span then "_" ++ s else s]%string). repeat split.
      + apply g_id. constructor. now apply identifier_kw.
      + apply (f_arg _ _ _ _ FF).
      + intros rest Fr. now apply lex_word.
    - (* matrix element *)
      destruct IH as [(ts & x & G & Vx & L) FC].
      assert (level a = 8 /\ minus a = false) as [L8 Mn] by (destruct a; try discriminate; auto).
      split; [|intros _ _; cbn; apply first_app, FC; [lia|assumption]].
      exists (ts ++ TPunct "(" :: ([TNum (dec_nat r)] ++ TPunct "," :: [TNum (dec_nat c)]) ++ [TPunct ")"])%list,
        (CCall x [CNum (dec_nat r); CNum (dec_nat c)]). repeat split.
      + rewrite L8 in G. apply g_call; [assumption|]. apply ga_some. apply ga_more.
        * apply (gram_down _ 8); [lia|lia|apply g_num].
        * apply ga_one. apply (gram_down _ 8); [lia|lia|apply g_num].
      + cbn. rewrite Vx. apply (f_elem _ _ _ _ FF).
      + intros rest Fr. cbn [cpp_text]. rewrite !sapp_assoc. rewrite L by (match goal with H : object a = true |- _ => rewrite H end; cbn; auto 7).
        rewrite lex_open. rewrite lex_number by (apply dec_nat_number || (cbn; auto)). rewrite lex_comma.
        rewrite lex_number by (apply dec_nat_number || (cbn; auto)). rewrite lex_close. now rewrite <- app_assoc.
    - (* field *)
      destruct IH as [(ts & x & G & Vx & L) FC].
      assert (level a = 8 /\ minus a = false) as [L8 Mn] by (destruct a; try discriminate; auto).
      split; [|intros _ _; cbn; apply first_app, FC; [lia|assumption]].
      exists (ts ++ [TPunct "."; TWord f])%list, (CDot x f). repeat split.
      + rewrite L8 in G. apply g_dot; [|assumption]. now apply identifier_kw.
      + cbn. rewrite Vx. apply (f_field _ _ _ _ FF).
      + intros rest Fr. cbn [cpp_text]. rewrite !sapp_assoc. rewrite L by (match goal with H : object a = true |- _ => rewrite H end; cbn; auto 7).
        assert (lex_from "" ("." ++ f ++ rest) = (TPunct "." :: lex_from "" (f ++ rest))%list) as ->.
        { transitivity (lex_from "." (f ++ rest)); [reflexivity|]. apply (lex_halt ".").
          destruct f as [|x0 f]; [match goal with H : identifier _ |- _ => destruct H end|]. match goal with H : identifier _ |- _ => destruct H as (Lx & _ & _) end. cbn [append halts].
          clear -Lx. destruct x0 as [[] [] [] [] [] [] [] []]; cbv in Lx |- *; auto; discriminate. }
        rewrite lex_word by (assumption || exact Fr). now rewrite <- app_assoc.
    - (* integer *)
      match goal with H : (_ < z < _)%Z |- _ => rename H into B end.
      unfold good. cbn [level minus object cpp_text value_of]. destruct (Z.ltb_spec z 0) as [N|N].
      + split; [|intros _ E; discriminate E]. rewrite dec_neg by assumption.
        exists [TPunct "-"; TNum (dec (- z))], (CUn "-" (CNum (dec (- z)))). repeat split.
        * apply g_un; [now left|]. apply (gram_down _ 8); [lia|lia|apply g_num].
        * cbn. rewrite (f_int _ _ _ _ FF) by lia. rewrite (f_minus_int _ _ _ _ FF) by lia. now rewrite Z.opp_involutive.
        * intros rest Fr. rewrite sapp_assoc. rewrite lex_minus by (apply first_app, number_first, dec_number; lia).
          rewrite lex_number; [reflexivity|apply dec_number; lia|assumption].
      + split; [|intros _ _; apply number_first, dec_number; assumption].
        exists [TNum (dec z)], (CNum (dec z)). repeat split.
        * apply g_num.
        * apply (f_int _ _ _ _ FF). lia.
        * intros rest Fr. now apply lex_number; [apply dec_number|].
    - (* float *)
      match goal with H : number _ |- _ => rename H into Nm end. match goal with H : _ \/ _ |- _ => rename H into Tx end.
      split; [|reflexivity].
      destruct Tx as [Tx|Tx].
      + exists [TWord "static_cast"; TPunct "<"; TWord "Scalar"; TPunct ">"; TPunct "("; TNum s; TPunct ")"], (CCast scalar_t (CNum s)). repeat split.
        * apply (g_cast [TWord "Scalar"] [TNum s]); [repeat constructor|]. apply (gram_down _ 8); [lia|lia|apply g_num].
        * exact (f_float _ _ _ _ FF l s Tx Nm).
        * intros rest Fr. cbn [cpp_text]. rewrite !sapp_assoc, lex_scalar, Tx. rewrite lex_number by (assumption || (cbn; auto)). now rewrite lex_close.
      + exists [TWord "static_cast"; TPunct "<"; TWord "Scalar"; TPunct ">"; TPunct "("; TPunct "-"; TNum s; TPunct ")"], (CCast scalar_t (CUn "-" (CNum s))). repeat split.
        * apply (g_cast [TWord "Scalar"] [TPunct "-"; TNum s]); [repeat constructor|]. apply (gram_down _ 7); [lia|lia|].
          apply g_un; [now left|]. apply (gram_down _ 8); [lia|lia|apply g_num].
        * exact (f_minus_float _ _ _ _ FF l s Tx Nm).
        * intros rest Fr. cbn [cpp_text]. rewrite !sapp_assoc, lex_scalar, Tx. rewrite sapp_assoc.
          rewrite lex_minus by (now apply first_app, number_first).
          rewrite lex_number by (assumption || (cbn; auto)). now rewrite lex_close.
    - (* boolean *)
      split; [|intros _ _; destruct b; reflexivity].
      exists [TWord (if b then "true" else "false")], (CBool b). repeat split.
      + destruct b; [apply g_true|apply g_false].
      + apply (f_bool _ _ _ _ FF).
      + intros rest Fr. assert (halts (if b then "true" else "false") rest) as Hh.
        { destruct rest as [|x r]; [exact I|]. cbn in Fr |- *.
          destruct Fr as [->|[->|[->|[E _]]]]; destruct b; try reflexivity; discriminate. }
        destruct b; exact (lex_halt _ _ Hh).
    - (* constant *)
      split; [|reflexivity].
      exists [TWord "static_cast"; TPunct "<"; TWord "Scalar"; TPunct ">"; TPunct "("; TWord (constant_string c); TPunct ")"], (CCast scalar_t (CId [constant_string c])). repeat split.
      + apply (g_cast [TWord "Scalar"] [TWord (constant_string c)]); [repeat constructor|]. apply (gram_down _ 8); [lia|lia|].
        apply g_id. constructor. now destruct c.
      + apply (f_sym _ _ _ _ FF).
      + intros rest Fr. cbn [cpp_text]. rewrite !sapp_assoc, lex_scalar. rewrite lex_word by ((destruct c; cbn; auto; fail) || (cbn; auto)). now rewrite lex_close.
    - (* sum *)
      split; [|cbn; lia]. apply Forall_cons_iff in IH as [IHa IH].
      match goal with H : fits _ a -> _, H' : fits _ a |- _ => specialize (H H') end.
      assert (Forall good (b :: t)) as HG by (rewrite Forall_forall in *; auto).
      destruct IHa as [(ta & ea & Ga & Va & La) _].
      destruct (chain_good 5 "+" (b :: t) ltac:(cbn; auto) eq_refl HG ltac:(assumption) ta ea) as (ts & x & G & Vx & L).
      { apply (gram_down _ (level a)); auto using level_le. }
      exists (ta ++ ts)%list, x. repeat split.
      + exact G.
      + rewrite Vx, Va. cbn [value_of]. generalize (value_of M a). generalize (map (value_of M) (b :: t)).
        intros vs. induction vs as [|v vs IHv]; intros u; [reflexivity|]. cbn [chain]. now rewrite (f_add _ _ _ _ FF), IHv.
      + intros rest Fr. cbn [cpp_text]. rewrite join_tail, sapp_assoc. destruct (L rest Fr) as [L1 L2].
        rewrite La by now apply follows_any. change " + " with (" " ++ "+" ++ " ")%string. rewrite L1. now rewrite app_assoc.
    - (* product *)
      split; [|cbn; lia]. apply Forall_cons_iff in IH as [IHa IH].
      match goal with H : fits _ a -> _, H' : fits _ a |- _ => specialize (H H') end.
      assert (Forall good (b :: t)) as HG by (rewrite Forall_forall in *; auto).
      destruct IHa as [(ta & ea & Ga & Va & La) _].
      destruct (chain_good 6 "*" (b :: t) ltac:(cbn; auto) eq_refl HG ltac:(assumption) ta ea) as (ts & x & G & Vx & L).
      { apply (gram_down _ (level a)); auto using level_le. }
      exists (ta ++ ts)%list, x. repeat split.
      + exact G.
      + rewrite Vx, Va. cbn [value_of]. generalize (value_of M a). generalize (map (value_of M) (b :: t)).
        intros vs. induction vs as [|v vs IHv]; intros u; [reflexivity|]. cbn [chain]. now rewrite (f_mul _ _ _ _ FF), IHv.
      + intros rest Fr. cbn [cpp_text]. rewrite join_tail, sapp_assoc. destruct (L rest Fr) as [L1 L2].
        rewrite La by now apply follows_any. change " * " with (" " ++ "*" ++ " ")%string. rewrite L1. now rewrite app_assoc.
    - (* quotient *)
      split; [|cbn; lia]. destruct IHa as [(ta & ea & Ga & Va & La) _]. destruct IHb as [(tb & eb & Gb & Vb & Lb) _].
      exists (ta ++ TPunct "/" :: tb)%list, (CBin "/" ea eb). repeat split.
      + apply (g_bin 6); [cbn; auto|apply (gram_down _ (level a)); auto using level_le|apply (gram_down _ (level b)); auto using level_le].
      + cbn. rewrite Va, Vb. apply (f_div _ _ _ _ FF).
      + intros rest Fr. cbn [cpp_text]. rewrite !sapp_assoc. rewrite La by (cbn; auto).
        change (" / " ++ text b ++ rest)%string with (" " ++ "/" ++ " " ++ text b ++ rest)%string.
        rewrite lex_op by reflexivity. rewrite Lb by now apply follows_any. now rewrite <- app_assoc.
    - (* minus *)
      split; [|discriminate]. destruct IH as [(ta & ea & Ga & Va & La) FC].
      exists (TPunct "-" :: ta)%list, (CUn "-" ea). repeat split.
      + apply g_un; [now left|]. apply (gram_down _ (level a)); auto using level_le.
      + cbn. rewrite Va. apply (f_neg _ _ _ _ FF).
      + intros rest Fr. cbn [cpp_text]. rewrite !sapp_assoc. rewrite lex_minus by (apply first_app; auto).
        rewrite La by now apply follows_any. reflexivity.
    - (* comparison *)
      split; [|destruct r; cbn; lia]. destruct IHa as [(ta & ea & Ga & Va & La) _]. destruct IHb as [(tb & eb & Gb & Vb & Lb) _].
      exists (ta ++ TPunct (relational_string r) :: tb)%list, (CBin (relational_string r) ea eb). repeat split.
      + apply g_bin; [destruct r; cbn; auto|apply (gram_down _ (level a)); auto using level_le|apply (gram_down _ (level b)); auto using level_le].
      + cbn. rewrite Va, Vb. apply (f_cmp _ _ _ _ FF).
      + intros rest Fr. cbn [cpp_text]. rewrite !sapp_assoc. rewrite La by (cbn; auto).
        rewrite lex_op by (destruct r; reflexivity). rewrite Lb by now apply follows_any. now rewrite <- app_assoc.
    - (* select *)
      split; [|cbn; lia]. destruct IHc as [(tc & ec & Gc & Vc & Lc) _]. destruct IHa as [(ta & ea & Ga & Va & La) _]. destruct IHb as [(tb & eb & Gb & Vb & Lb) _].
      exists (tc ++ TPunct "?" :: ta ++ TPunct ":" :: tb)%list, (CCond ec ea eb). repeat split.
      + apply g_cond; [apply (gram_down _ (level c))|apply (gram_down _ (level a))|apply (gram_down _ (level b))]; auto using level_le; lia.
      + cbn. rewrite Va, Vb, Vc. apply (f_cond _ _ _ _ FF).
      + intros rest Fr. cbn [cpp_text]. rewrite !sapp_assoc. rewrite Lc by (cbn; auto).
        change (" ? " ++ ?x)%string with (" " ++ "?" ++ " " ++ x)%string. rewrite lex_op by reflexivity. rewrite La by (cbn; auto).
        change (" : " ++ text b ++ rest)%string with (" " ++ ":" ++ " " ++ text b ++ rest)%string. rewrite lex_op by reflexivity.
        rewrite Lb by now apply follows_any. rewrite <- app_assoc. cbn. now rewrite <- app_assoc.
    - (* cast *)
      split; [|reflexivity]. destruct (cast_good t a IH) as (ts & x & G & Vx & L).
      exists ts, (CCast (type_path t) x). repeat split.
      + exact G.
      + cbn. rewrite Vx. apply (f_cast _ _ _ _ FF).
      + intros rest Fr. cbn [cpp_text]. rewrite !sapp_assoc. apply L.
    - (* library function *)
      assert (Forall good l) as HG by (rewrite Forall_forall in *; auto).
      match goal with H : length l = _ |- _ => rename H into Ln end. match goal with H : f = F_signum -> _ |- _ => rename H into Sg end.
      assert (l <> []) as Nl by (destruct l; [destruct f; discriminate Ln|discriminate]).
      assert (f = F_signum \/ f <> F_signum) as [->|Ns] by (destruct f; (now left) || (right; discriminate)).
      { split; [|cbn; lia]. cbn in Ln. destruct l as [|a [|? ?]]; try discriminate Ln. specialize (Sg eq_refl).
        apply Forall_cons_iff in Sg as [Sg _]. apply Forall_cons_iff in HG as [[(ts & x & G & Vx & L) _] _].
        pose (z := [TWord "static_cast"; TPunct "<"; TWord "Scalar"; TPunct ">"; TPunct "("; TNum "0"; TPunct ")"]).
        exists ((TPunct "(" :: (z ++ TPunct "<" :: ts) ++ [TPunct ")"]) ++ TPunct "-" :: (TPunct "(" :: (ts ++ TPunct "<" :: z) ++ [TPunct ")"]))%list,
          (CBin "-" (CBin "<" (CCast scalar_t (CNum "0")) x) (CBin "<" x (CCast scalar_t (CNum "0")))). repeat split.
        - pose proof (level_le a) as La. apply (g_bin 5); [cbn; auto|apply (gram_down _ 8); [lia|lia|]|apply (gram_down _ 8); [lia|lia|]]; apply g_paren; apply (gram_down _ 4); try lia.
          + apply (g_bin 4); [cbn; auto|apply (gram_down _ 8); [lia|lia|apply zero_gram]|apply (gram_down _ (level a)); auto].
          + apply (g_bin 4); [cbn; auto|apply (gram_down _ (level a)); auto; lia|apply (gram_down _ 8); [lia|lia|apply zero_gram]].
        - cbn. rewrite Vx. apply (f_signum _ _ _ _ FF).
        - intros rest Fr. cbn [cpp_text std_text map arg0 nth]. rewrite !sapp_assoc.
          change ("(static_cast<Scalar>(0) < " ++ ?y)%string with ("(" ++ "static_cast<Scalar>(0)" ++ " " ++ "<" ++ " " ++ y)%string.
          rewrite lex_open, zero_good, lex_op by reflexivity. rewrite L by (apply follows_any; cbn; auto).
          change (") - (" ++ ?y)%string with (")" ++ " " ++ "-" ++ " " ++ "(" ++ y)%string.
          rewrite lex_close, lex_op by reflexivity. rewrite lex_open. rewrite L by (apply follows_any; cbn; auto).
          change (" < static_cast<Scalar>(0))" ++ rest)%string with (" " ++ "<" ++ " " ++ "static_cast<Scalar>(0)" ++ ")" ++ rest)%string.
          rewrite lex_op by reflexivity. rewrite zero_good, lex_close. subst z. cbn. rewrite <- !app_assoc. cbn. rewrite <- !app_assoc. reflexivity. }
      assert (f = F_floor \/ f <> F_floor) as [->|Nf] by (destruct f; (now left) || (right; discriminate)).
      { split; [|reflexivity]. cbn in Ln. destruct l as [|a [|? ?]]; try discriminate Ln.
        destruct (std_good "floor" [a] ltac:(cbn; auto) HG Nl) as (ts & es & G & Vs & L). cbn [map join String.concat] in L.
        eexists (TWord "static_cast" :: TPunct "<" :: _ ++ TPunct ">" :: TPunct "(" :: ts ++ [TPunct ")"])%list, (CCast (type_path NInt) (CCall (CId ["std"; "floor"]) es)). repeat split.
        - apply g_cast; [apply type_tokens|]. apply (gram_down _ 8); [lia|lia|exact G].
        - cbn. rewrite Vs. apply (f_floor _ _ _ _ FF).
        - intros rest Fr. cbn [cpp_text std_text map arg0 nth]. rewrite !sapp_assoc.
          change (">(std::floor(" ++ ?y)%string with (">(" ++ "std::" ++ "floor" ++ "(" ++ y)%string.
          change ("))" ++ rest)%string with (")" ++ ")" ++ rest)%string. rewrite (lex_static NInt _ _ eq_refl), L, lex_close.
          cbn. rewrite <- app_assoc. reflexivity. }
      assert (forall a, l = [a] -> f <> F_atan2 -> f <> F_powi -> f <> F_powf -> good (AStd f l)) as One.
      { intros a -> N1 N2 N3.
        assert (level (AStd f [a]) = 8 /\ object (AStd f [a]) = false /\
                text (AStd f [a]) = ("std::" ++ function_string f ++ "(" ++ text a ++ ")")%string) as (E1 & E2 & E3)
          by (destruct f; try congruence; auto).
        unfold good. rewrite E1, E2, E3. split; [|reflexivity].
        destruct (std_good (function_string f) [a] (function_identifier f) HG Nl) as (ts & es & G & Vs & L). cbn [map join String.concat] in L.
        exists ts, (CCall (CId ["std"; function_string f]) es). repeat split.
        - exact G.
        - cbn. rewrite Vs. now apply (f_std1 _ _ _ _ FF).
        - intros rest Fr. rewrite !sapp_assoc. apply L. }
      assert (forall s a b, l = [a; b] -> identifier s -> level (AStd f l) = 8 -> object (AStd f l) = false ->
                text (AStd f l) = ("std::" ++ s ++ "(" ++ text a ++ ", " ++ text b ++ ")")%string ->
                c_call C (c_id C ["std"; s]) [value_of M a; value_of M b] = m_std M f [value_of M a; value_of M b] -> good (AStd f l)) as Two.
      { intros s a b -> Is E1 E2 E3 E4. unfold good. rewrite E1, E2, E3. split; [|reflexivity].
        destruct (std_good s [a; b] Is HG Nl) as (ts & es & G & Vs & L). cbn [map join String.concat] in L.
        exists ts, (CCall (CId ["std"; s]) es). repeat split.
        - exact G.
        - cbn. rewrite Vs. exact E4.
        - intros rest Fr. rewrite !sapp_assoc. specialize (L rest). rewrite !sapp_assoc in L. apply L. }
      destruct f; try congruence; cbn in Ln;
        try (destruct l as [|a [|? ?]]; try discriminate Ln; apply (One a); (reflexivity || discriminate)).
      + destruct l as [|a [|b [|? ?]]]; try discriminate Ln. apply (Two "atan2" a b); try reflexivity; [cbn; auto|apply (f_atan2 _ _ _ _ FF)].
      + destruct l as [|a [|b [|? ?]]]; try discriminate Ln. apply (Two "pow" a b); try reflexivity; [cbn; auto|apply (f_powi _ _ _ _ FF)].
      + destruct l as [|a [|b [|? ?]]]; try discriminate Ln. apply (Two "pow" a b); try reflexivity; [cbn; auto|apply (f_powf _ _ _ _ FF)].
    - (* external function *)
      assert (Forall good l) as HG by (rewrite Forall_forall in *; auto).
      match goal with H : identifier f |- _ => rename H into If end.
      split; [|intros _ _; cbn; destruct b; [reflexivity|now apply first_app, identifier_first]].
      destruct (call_good f l If HG) as (ts & es & G & Vs & L).
      destruct b.
      + exists (TWord "static_cast" :: TPunct "<" :: [TWord "Scalar"] ++ TPunct ">" :: TPunct "(" :: ts ++ [TPunct ")"])%list, (CCast scalar_t (CCall (CId [f]) es)). repeat split.
        * apply g_cast; [repeat constructor|]. apply (gram_down _ 8); [lia|lia|exact G].
        * cbn. rewrite Vs. apply (f_ext_float _ _ _ _ FF).
        * intros rest Fr. cbn [cpp_text]. rewrite !sapp_assoc. change ("))" ++ rest)%string with (")" ++ ")" ++ rest)%string.
          rewrite lex_scalar, L, lex_close. cbn. now rewrite <- app_assoc.
      + exists ts, (CCall (CId [f]) es). repeat split.
        * exact G.
        * cbn. rewrite Vs. apply (f_ext _ _ _ _ FF).
        * intros rest Fr. cbn [cpp_text]. rewrite !sapp_assoc. apply L.
    - (* parentheses *)
      split; [|reflexivity]. destruct IH as [(ta & ea & Ga & Va & La) _].
      exists (TPunct "(" :: ta ++ [TPunct ")"])%list, ea. repeat split.
      + apply g_paren. apply (gram_down _ (level a)); auto using level_le. lia.
      + exact Va.
      + intros rest Fr. cbn [cpp_text]. rewrite !sapp_assoc, lex_open. rewrite La by (apply follows_any; cbn; auto). rewrite lex_close.
        cbn. now rewrite <- app_assoc.
  Qed.

  Theorem text_reads e : fits ftext e -> exists t, reads_as (text e) t /\ ceval C t = value_of M e.
  Proof.
    intros F. destruct (fits_good e F) as [(ts & t & G & Vt & L) _]. exists t. split; [|assumption].
    unfold reads_as, lex. specialize (L "" I). rewrite sapp_nil in L. rewrite L. cbn. rewrite app_nil_r.
    apply (gram_down _ (level e)); auto using level_le. lia.
  Qed.
End Text.
