(** The Python text of a tree whose operands fit is read as the tree. *)
From Coq Require Import String Ascii List Arith ZArith Bool Lia.
From Verif Require Import Outcome NumProofs IrModel CppSpec CppParse PySpec PyParse PlainSpec PlainLex AstModel AstSpec AstProofs AstTree
  PyCodeModel PyCodeSpec.
Import ListNotations.
Open Scope string_scope.
Open Scope nat_scope.

Lemma py_name_identifier s : py_name s -> py_identifier s.
Proof.
  destruct s as [|c t]; [intros []|]. intros (L & A & K). split; [unfold py_letter; now rewrite L|]. split; [|assumption].
  apply (all_weak is_word_char); [|assumption]. intros x X. unfold py_word_char, py_letter, is_word_char in *.
  apply orb_true_iff in X as [X|X]; rewrite X; [reflexivity|now rewrite orb_true_r].
Qed.
Lemma variable_py_name w n : py_name (variable_name w n).
Proof.
  destruct (variable_identifier w n) as (L & A & _). split; [exact L|]. split; [exact A|reflexivity].
Qed.

(** ** Texts *)
Lemma plex_spaced2 o rest : is_in o ["*"; "/"] = true -> plex (" " ++ o ++ " " ++ rest) = (TPunct o :: plex rest)%list.
Proof.
  intros H. apply CppParse.is_in_In in H. cbn in H. repeat destruct H as [H|H]; try contradiction; subst o; reflexivity.
Qed.
Lemma written_op n a b x y o : In o (py_binops n) -> is_in o ["+"; "*"; "/"] = true ->
  written n a x -> written (S n) b y -> written n (a ++ " " ++ o ++ " " ++ b) (PBin o x y).
Proof.
  intros I O (t1 & (S1 & K1) & G1) (t2 & (S2 & K2) & G2). exists (t1 ++ TPunct o :: t2)%list. split; [split|now apply pg_bin].
  - now apply starts_app.
  - intros rest Hr. rewrite !sapp_assoc, K1 by reflexivity.
    apply CppParse.is_in_In in O. cbn in O. repeat destruct O as [O|O]; try contradiction; subst o.
    + rewrite plex_spaced, K2 by (reflexivity || assumption). now rewrite <- app_assoc.
    + rewrite plex_spaced2, K2 by (reflexivity || assumption). now rewrite <- app_assoc.
    + rewrite plex_spaced2, K2 by (reflexivity || assumption). now rewrite <- app_assoc.
Qed.
Lemma primary_paren s t : written 0 s t -> primary ("(" ++ s ++ ")") t.
Proof.
  intros (ts & (S & K) & G). split; [reflexivity|]. exists (TPunct "(" :: ts ++ [TPunct ")"])%list. split; [now apply pg_paren|].
  intros rest Hr. rewrite !sapp_assoc, plex_open, K by reflexivity. rewrite plex_close. cbn. now rewrite <- app_assoc.
Qed.
Lemma primary_call s f a l : primary s f -> written_args a l -> primary (s ++ "(" ++ a ++ ")") (PCall f l).
Proof.
  intros (S & ts & G & K) (t2 & G2 & K2). split; [now apply starts_app|].
  exists (ts ++ TPunct "(" :: t2 ++ [TPunct ")"])%list. split; [now apply pg_call|].
  intros rest Hr. rewrite !sapp_assoc, K by reflexivity. rewrite plex_open, K2, plex_close.
  rewrite <- app_assoc. cbn. now rewrite <- app_assoc.
Qed.
Lemma plex_equals s rest : starts s -> plex ("=" ++ s ++ rest) = (TPunct "=" :: plex (s ++ rest))%list.
Proof.
  intros S. apply (plex_halt "=" (s ++ rest)). destruct s as [|c s]; [destruct S|]. cbn [append phalts starts] in *.
  clear -S. destruct c as [[] [] [] [] [] [] [] []]; cbv in S |- *; auto; discriminate.
Qed.
Lemma plex_word_eq s rest : py_identifier s -> plex (s ++ "=" ++ rest) = (TWord s :: plex ("=" ++ rest))%list.
Proof.
  destruct s as [|c t]; [intros []|]. intros (L & A & K). rewrite plex_one.
  - cbn [py_token]. now rewrite L.
  - apply pword_not_space. unfold py_word_char. now rewrite L.
  - now apply pword_token.
  - cbn [append phalts py_extends]. now rewrite L.
Qed.
(** One argument and one with a keyword. *)
Lemma written_args_key a x k b y : py_identifier k -> written 0 a x -> written 0 b y ->
  written_args (a ++ ", " ++ k ++ "=" ++ b) [x; PKey k y].
Proof.
  intros N (t1 & (S1 & K1) & G1) (t2 & (S2 & K2) & G2).
  exists (t1 ++ TPunct "," :: TWord k :: TPunct "=" :: t2)%list. split.
  - apply pa_some, pa_more; [assumption|]. apply pa_key; [|assumption]. destruct k; [destruct N|]. apply N.
  - intros rest. rewrite !sapp_assoc, K1 by reflexivity. rewrite plex_comma, plex_word_eq by assumption.
    rewrite plex_equals, K2 by (assumption || reflexivity). now rewrite <- app_assoc.
Qed.

Section Text.
  Variables (T : py_target) (w : py_width) (ftext : load_src -> string).
  Notation text := (py_text T w ftext).
  Notation lvl := (py_level T ftext).
  Notation fit := (py_fits T ftext).

  Lemma level_le5 e : lvl e <= 5.
  Proof.
    destruct e as [| | | |z|l| | |[|? [|? ?]]|[|? [|? ?]]| | | | | | | |]; cbn; try lia.
    - destruct (z <? 0)%Z; lia.
    - destruct (bare_minus T (ftext l)); lia.
  Qed.

  Definition means (t : pexp) (e : ast) : Prop :=
    forall P M, py_faithful T w ftext P M -> py_eval P t = value_of M e.
  Definition well (e : ast) (t : pexp) : Prop :=
    written (lvl e) (text e) t /\ (object e = true -> primary (text e) t) /\ means t e.

  Lemma module_primary : primary (module_string T) (PId (module_name T)).
  Proof. destruct T; apply primary_name; repeat split. Qed.
  Lemma member_primary s : py_identifier s -> primary (module_string T ++ "." ++ s) (PDot (PId (module_name T)) s).
  Proof. intros N. apply primary_dot; [assumption|apply module_primary]. Qed.
  Lemma written_args_1 a x : written 0 a x -> written_args a [x].
  Proof. intros W. apply (written_args_of [a] [x]). constructor; [exact W|constructor]. Qed.

  (** The text of a conversion. *)
  Lemma cast_primary a x t : written 0 a x -> exists y, primary (py_cast T w a t) y /\
    forall P, py_eval P y = convert T w P t (py_eval P x).
  Proof.
    intros W. unfold py_cast.
    assert (py_identifier (dtype_string w t) /\ dtype_string w t = type_name w t) as [D ->] by (destruct t, w; repeat split).
    assert (forall U, U <> Torch -> T = U ->
      exists y, primary (module_string T ++ "." ++ type_name w t ++ "(" ++ a ++ ")") y /\
        forall P, py_eval P y = p_call P (member T P (type_name w t)) [py_eval P x]) as H.
    { intros U NU EU. exists (PCall (PDot (PId (module_name T)) (type_name w t)) [x]). split; [|reflexivity].
      replace (module_string T ++ "." ++ type_name w t ++ "(" ++ a ++ ")") with ((module_string T ++ "." ++ type_name w t) ++ "(" ++ a ++ ")")
        by now rewrite !sapp_assoc.
      apply primary_call; [|now apply written_args_1]. apply member_primary. destruct t, w; repeat split. }
    unfold convert. destruct T eqn:ET.
    - apply (H Numpy); [discriminate|reflexivity].
    - exists (PCall (PDot (PId (module_name Torch)) "asarray") [x; PKey "dtype" (PDot (PId (module_name Torch)) (type_name w t))]).
      split; [|reflexivity].
      replace (module_string Torch ++ ".asarray(" ++ a ++ ", dtype=" ++ module_string Torch ++ "." ++ type_name w t ++ ")") with
        ((module_string Torch ++ "." ++ "asarray") ++ "(" ++ (a ++ ", " ++ "dtype" ++ "=" ++ module_string Torch ++ "." ++ type_name w t) ++ ")").
      2:{ now rewrite !sapp_assoc. }
      rewrite <- ET in *. apply primary_call; [apply member_primary; repeat split|].
      apply written_args_key; [repeat split|assumption|]. apply (written_down 0 5); [lia|lia|]. apply primary_written, member_primary.
      destruct t, w; repeat split.
    - apply (H Jax); [discriminate|reflexivity].
  Qed.

  (** Sums and products. *)
  Lemma concat_merge sep a b l : String.concat sep (a :: b :: l) = String.concat sep ((a ++ sep ++ b) :: l).
  Proof. destruct l as [|c l]; [reflexivity|]. cbn [String.concat]. now rewrite !sapp_assoc. Qed.
  Lemma join_written n o l ts : In o (py_binops n) -> is_in o ["+"; "*"; "/"] = true ->
    Forall2 (written (S n)) l ts ->
    forall s0 t0, written n s0 t0 -> written n (join (" " ++ o ++ " ") (s0 :: l)) (fold_left (PBin o) ts t0).
  Proof.
    intros Io Ip H. induction H as [|s t l ts Hs _ IH]; intros s0 t0 W; [exact W|].
    unfold join. rewrite concat_merge. apply IH. rewrite !sapp_assoc. now apply written_op.
  Qed.
  Lemma chain_means P o l ts (g : PV P -> PV P -> PV P) M : (forall a b, p_bin P o a b = g a b) ->
    Forall2 (fun e t => py_eval P t = value_of M e) l ts ->
    forall t0, py_eval P (fold_left (PBin o) ts t0) = chain g (py_eval P t0) (map (value_of M) l).
  Proof.
    intros Hg H. induction H as [|e t l ts Ht _ IH]; intros t0; [reflexivity|]. cbn [fold_left map chain].
    rewrite IH. cbn [py_eval]. now rewrite Hg, Ht.
  Qed.
  (** Trees for a list of operands. *)
  Lemma wells l : Forall (fun e => fit e -> exists t, well e t) l -> Forall fit l -> exists ts, Forall2 well l ts.
  Proof.
    induction l as [|e l IH]; intros H F; [exists []; constructor|].
    apply Forall_cons_iff in H as [He H]. apply Forall_cons_iff in F as [Fe F].
    destruct (He Fe) as [t Ht], (IH H F) as [ts Hts]. exists (t :: ts). now constructor.
  Qed.
  Lemma wells_written n l ts : Forall2 well l ts -> Forall (fun x => n <= lvl x) l -> Forall2 (written n) (map text l) ts.
  Proof.
    intros H. induction H as [|e t l ts (W & _) _ IH]; intros L; cbn; constructor.
    - apply (written_down n (lvl e)); auto using level_le5. now apply Forall_cons_iff in L as [L _].
    - apply IH. now apply Forall_cons_iff in L as [_ L].
  Qed.
  Lemma wells_eval P M l ts : py_faithful T w ftext P M -> Forall2 well l ts -> Forall2 (fun e t => py_eval P t = value_of M e) l ts.
  Proof. intros FF H. induction H as [|e t l ts (_ & _ & E) _ IH]; constructor; auto. Qed.
  Lemma wells_map P M l ts : py_faithful T w ftext P M -> Forall2 well l ts -> map (py_eval P) ts = map (value_of M) l.
  Proof. intros FF H. apply (wells_eval P M) in H; auto. induction H as [|e t l ts E _ IH]; cbn; congruence. Qed.
  Lemma wells_args l ts : Forall2 well l ts -> written_args (join ", " (map text l)) ts.
  Proof.
    intros H. apply written_args_of. apply wells_written; auto. apply Forall_forall. intros. lia.
  Qed.

  Theorem fits_well : forall e, fit e -> exists t, well e t.
  Proof.
    assert (forall e t, lvl e = 5 -> primary (text e) t -> means t e -> exists t, well e t) as Prim.
    { intros e t L Pr Me. exists t. split; [rewrite L; now apply primary_written|]. now split. }
    assert (forall e t, written (lvl e) (text e) t -> object e = false -> means t e -> exists t, well e t) as Plain.
    { intros e t W O Me. exists t. split; [assumption|]. split; [congruence|assumption]. }
    induction e as [s|s m|a r c IH|a f IH|z|l|b|c|l IH|l IH|a b IHa IHb|a IH|r a b IHa IHb|c a b IHc IHa IHb|t a IH|f l IH|f b l IH|a IH]
      using ast_ind'; intros F; inversion F; subst; clear F;
      repeat match goal with
      | H : fit ?a -> _, H' : fit ?a |- _ => specialize (H H')
      end.
    - apply (Prim _ (PId s)); [reflexivity|now apply primary_name, py_name_identifier|]. intros P M FF. apply (y_var _ _ _ _ _ FF).
    - apply (Prim _ (PId s)); [reflexivity|now apply primary_name, py_name_identifier|]. intros P M FF. apply (y_arg _ _ _ _ _ FF).
    - (* element *)
      destruct IH as (t & _ & Pr & Me).
      apply (Prim _ (PSub t [PNum (dec_nat r); PNum (dec_nat c)])); [reflexivity| |].
      + apply primary_sub; [apply pdec_number; lia|apply pdec_number; lia|auto].
      + intros P M FF. cbn. rewrite (Me P M FF). apply (y_elem _ _ _ _ _ FF).
    - (* field *)
      destruct IH as (t & _ & Pr & Me). apply (Prim _ (PDot t f)); [reflexivity| |].
      + apply primary_dot; [now apply py_name_identifier|auto].
      + intros P M FF. cbn. rewrite (Me P M FF). apply (y_field _ _ _ _ _ FF).
    - (* integer *)
      destruct (z <? 0)%Z eqn:Z0.
      + apply Z.ltb_lt in Z0. apply (Plain _ (PUn "-" (PNum (dec (- z))))); [|reflexivity|].
        * cbn [py_level py_text]. replace (z <? 0)%Z with true by (symmetry; now apply Z.ltb_lt). rewrite dec_neg by assumption.
          apply written_minus. apply (written_down 3 5); [lia|lia|]. apply written_number, pdec_number. lia.
        * intros P M FF. cbn. rewrite (y_int _ _ _ _ _ FF) by lia. rewrite (y_minus_int _ _ _ _ _ FF) by lia. now rewrite Z.opp_involutive.
      + apply (Plain _ (PNum (dec z))); [|reflexivity|].
        * cbn [py_level py_text]. rewrite Z0. apply written_number, pdec_number. apply Z.ltb_ge in Z0. lia.
        * intros P M FF. cbn. apply (y_int _ _ _ _ _ FF). apply Z.ltb_ge in Z0. lia.
    - (* float *)
      assert (exists x, written (if bare_minus Torch (ftext l) then 3 else 5) (ftext l) x /\
                forall P M, py_faithful T w ftext P M -> constant T w P (py_eval P x) = m_float M l) as (x & W & V).
      { match goal with H : _ \/ _ |- _ => destruct H as [E|E] end.
        - exists (PNum (ftext l)). split.
          + replace (bare_minus Torch (ftext l)) with false; [apply written_number; now rewrite E|].
            rewrite E. destruct s as [|c s]; [reflexivity|]. destruct H0 as [D _]. cbn. symmetry. clear -D.
            destruct c as [[] [] [] [] [] [] [] []]; cbv in D |- *; auto; discriminate.
          + intros P M FF. apply (y_float _ _ _ _ _ FF); [reflexivity|]. now rewrite E.
        - exists (PUn "-" (PNum s)). split.
          + rewrite E. cbn [bare_minus append Ascii.eqb Bool.eqb]. apply (written_minus s). apply (written_down 3 5); [lia|lia|].
            now apply written_number.
          + intros P M FF. now apply (y_minus_float _ _ _ _ _ FF). }
      assert (written 0 (ftext l) x) as W0.
      { apply (written_down 0 (if bare_minus Torch (ftext l) then 3 else 5)); [lia|destruct (bare_minus _ _); lia|assumption]. }
      destruct (cast_primary (ftext l) x NFloat W0) as (y & Py & Ey). unfold constant in V.
      assert (T = Torch \/ T <> Torch) as [ET|NT] by (destruct T; auto; right; discriminate).
      + apply (Plain _ x); [|reflexivity|].
        * cbn [py_level py_text]. rewrite ET. exact W.
        * intros P M FF. specialize (V P M FF). rewrite ET in V. exact V.
      + apply (Plain _ y); [|reflexivity|].
        * cbn [py_level py_text]. assert (bare_minus T (ftext l) = false) as -> by (destruct T; cbn; auto; congruence).
          apply primary_written. destruct T; auto. congruence.
        * intros P M FF. cbn. rewrite Ey, <- (V P M FF). destruct T; auto. congruence.
    - apply (Plain _ (PBool b)); [apply written_bool|reflexivity|]. intros P M FF. apply (y_bool _ _ _ _ _ FF).
    - (* constant *)
      assert (primary (module_string T ++ "." ++ match c with SEuler => "e" | SPi => "pi" end) (PDot (PId (module_name T)) (constant_name c))) as Pc.
      { replace (match c with SEuler => "e" | SPi => "pi" end) with (constant_name c) by now destruct c.
        apply member_primary. destruct c; repeat split. }
      destruct (cast_primary _ _ NFloat (written_down 0 5 _ _ ltac:(lia) ltac:(lia) (primary_written _ _ Pc))) as (y & Py & Ey).
      assert (T = Torch \/ T <> Torch) as [ET|NT] by (destruct T; auto; right; discriminate).
      + apply (Prim _ (PDot (PId (module_name T)) (constant_name c))); [reflexivity| |].
        * cbn [py_text]. rewrite ET in *. exact Pc.
        * intros P M FF. pose proof (y_sym _ _ _ _ _ FF c) as E. cbn [value_of]. rewrite <- E. rewrite ET. reflexivity.
      + apply (Prim _ y); [reflexivity| |].
        * cbn [py_text]. destruct T; auto. congruence.
        * intros P M FF. pose proof (y_sym _ _ _ _ _ FF c) as E. cbn [value_of]. rewrite <- E, Ey.
          unfold constant. destruct T; auto. congruence.
    - (* sum *)
      destruct (wells _ IH) as (ts & Hts); [now constructor|]. inversion Hts as [|? t0 ? ts' W0 Wt]; subst.
      apply (Plain _ (fold_left (PBin "+") ts' t0)); [|reflexivity|].
      + cbn [py_level py_text map]. apply (join_written 1 "+"); cbn; auto.
        * apply (wells_written 2 (b :: t)); auto.
        * apply (written_down 1 (lvl a)); auto using level_le5. apply W0.
      + intros P M FF. cbn [value_of]. rewrite (chain_means P "+" (b :: t) ts' (m_add M) M (y_add _ _ _ _ _ FF)) by (eapply wells_eval; eauto).
        f_equal. now apply W0.
    - (* product *)
      destruct (wells _ IH) as (ts & Hts); [now constructor|]. inversion Hts as [|? t0 ? ts' W0 Wt]; subst.
      apply (Plain _ (fold_left (PBin "*") ts' t0)); [|reflexivity|].
      + cbn [py_level py_text map]. apply (join_written 2 "*"); cbn; auto.
        * apply (wells_written 3 (b :: t)); auto.
        * apply (written_down 2 (lvl a)); auto using level_le5. apply W0.
      + intros P M FF. cbn [value_of]. rewrite (chain_means P "*" (b :: t) ts' (m_mul M) M (y_mul _ _ _ _ _ FF)) by (eapply wells_eval; eauto).
        f_equal. now apply W0.
    - (* quotient *)
      destruct IHa as (x & Wx & _ & Ex), IHb as (y & Wy & _ & Ey). apply (Plain _ (PBin "/" x y)); [|reflexivity|].
      + cbn [py_level py_text]. apply (written_op 2 _ _ x y "/"); cbn; auto.
        * apply (written_down 2 (lvl a)); auto using level_le5.
        * apply (written_down 3 (lvl b)); auto using level_le5.
      + intros P M FF. cbn. rewrite (Ex P M FF), (Ey P M FF). apply (y_div _ _ _ _ _ FF).
    - (* minus *)
      destruct IH as (x & Wx & _ & Ex). apply (Plain _ (PUn "-" x)); [|reflexivity|].
      + cbn [py_level py_text]. apply written_minus. apply (written_down 3 (lvl a)); auto using level_le5.
      + intros P M FF. cbn. rewrite (Ex P M FF). apply (y_neg _ _ _ _ _ FF).
    - (* comparison *)
      destruct IHa as (x & Wx & _ & Ex), IHb as (y & Wy & _ & Ey). apply (Plain _ (PBin (relational_string r) x y)); [|reflexivity|].
      + cbn [py_level py_text]. apply written_cmp.
        * now destruct r.
        * apply (written_down 1 (lvl a)); auto using level_le5.
        * apply (written_down 1 (lvl b)); auto using level_le5.
      + intros P M FF. cbn. rewrite (Ex P M FF), (Ey P M FF).
        destruct r; [apply (y_lt _ _ _ _ _ FF)|apply (y_le _ _ _ _ _ FF)|apply (y_eq _ _ _ _ _ FF)].
    - (* selection *)
      destruct IHc as (z & Wz & _ & Ez), IHa as (x & Wx & _ & Ex), IHb as (y & Wy & _ & Ey).
      apply (Prim _ (PCall (PDot (PId (module_name T)) "where") [z; x; y])); [reflexivity| |].
      + cbn [py_text].
        replace (module_string T ++ ".where(" ++ text c ++ ", " ++ text a ++ ", " ++ text b ++ ")") with
          ((module_string T ++ "." ++ "where") ++ "(" ++ String.concat ", " [text c; text a; text b] ++ ")")
          by (cbn [String.concat]; now rewrite !sapp_assoc).
        apply primary_call; [apply member_primary; repeat split|]. apply written_args_of.
        repeat constructor; eapply written_down; try eassumption; auto using level_le5; lia.
      + intros P M FF. cbn. rewrite (Ex P M FF), (Ey P M FF), (Ez P M FF). apply (y_cond _ _ _ _ _ FF).
    - (* conversion *)
      destruct IH as (x & Wx & _ & Ex).
      destruct (cast_primary (text a) x t) as (y & Py & Ey).
      { eapply written_down; try eassumption; auto using level_le5. lia. }
      apply (Prim _ y); [reflexivity|exact Py|]. intros P M FF. rewrite Ey, (Ex P M FF). apply (y_cast _ _ _ _ _ FF).
    - (* function of the library *)
      destruct (wells _ IH) as (ts & Hts); [assumption|].
      apply (Prim _ (PCall (PDot (PId (module_name T)) (function_name f)) ts)); [reflexivity| |].
      + cbn [py_text]. assert (py_function f = function_name f) as -> by now destruct f.
        replace (module_string T ++ "." ++ function_name f ++ "(" ++ join ", " (map text l) ++ ")") with
          ((module_string T ++ "." ++ function_name f) ++ "(" ++ join ", " (map text l) ++ ")") by now rewrite !sapp_assoc.
        apply primary_call; [apply member_primary; destruct f; repeat split|]. now apply wells_args.
      + intros P M FF. cbn. rewrite (wells_map P M _ _ FF Hts). apply (y_std _ _ _ _ _ FF).
    - (* external function *)
      destruct (wells _ IH) as (ts & Hts); [assumption|].
      apply (Prim _ (PCall (PId f) ts)); [reflexivity| |].
      + apply primary_call; [now apply primary_name, py_name_identifier|]. now apply wells_args.
      + intros P M FF. cbn. rewrite (wells_map P M _ _ FF Hts). apply (y_ext _ _ _ _ _ FF).
    - (* parentheses *)
      destruct IH as (x & Wx & _ & Ex). apply (Prim _ x); [reflexivity| |exact Ex].
      apply primary_paren. eapply written_down; try eassumption; auto using level_le5. lia.
  Qed.

  Theorem py_text_reads e : fit e -> exists t, py_reads (text e) t /\ means t e.
  Proof.
    intros F. destruct (fits_well e F) as (t & W & _ & Me). exists t. split; [|assumption]. apply written_reads.
    eapply written_down; try eassumption; auto using level_le5. lia.
  Qed.
End Text.
