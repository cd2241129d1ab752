From Coq Require Import String List Arith Bool Lia.
From Verif Require Import Outcome CustomTypeModel CustomTypeSpec.
Import ListNotations.
Open Scope outcome_scope.

(** Induction over nested types. *)
Section TyInd.
  Variable P : ty -> Prop.
  Hypothesis HS : forall n, P (TScalar n).
  Hypothesis HM : forall r c, P (TMatrix r c).
  Hypothesis HC : forall name fs, Forall (fun p => P (snd p)) fs -> P (TCustom name fs).
  Fixpoint ty_nested_ind (t : ty) : P t :=
    match t with
    | TScalar n => HS n
    | TMatrix r c => HM r c
    | TCustom name fs =>
        HC name fs ((fix go (l : list (string * ty)) : Forall (fun p => P (snd p)) l :=
           match l with
           | [] => Forall_nil _
           | p :: l' => Forall_cons p (ty_nested_ind (snd p)) (go l')
           end) fs)
    end.
End TyInd.

Definition fields_size (fs : list (string * ty)) : nat := list_sum (map (fun p => total_size (snd p)) fs).
Lemma total_size_custom name fs : total_size (TCustom name fs) = fields_size fs.
Proof. cbn. unfold fields_size. induction fs as [|[n t] fs IH]; cbn; [reflexivity|]. now rewrite IH. Qed.

Lemma fields_size_cons n t fs : fields_size ((n, t) :: fs) = total_size t + fields_size fs.
Proof. reflexivity. Qed.

Definition fields_leaf_types (fs : list (string * ty)) := flat_map (fun p => leaf_types (snd p)) fs.
Lemma leaf_types_custom name fs : leaf_types (TCustom name fs) = fields_leaf_types fs.
Proof. cbn. unfold fields_leaf_types. induction fs as [|[n t] fs IH]; cbn; [reflexivity|]. now rewrite IH. Qed.

Lemma leaf_types_length t : length (leaf_types t) = total_size t.
Proof.
  induction t as [n|r c|name fs IH] using ty_nested_ind; [reflexivity|cbn; apply repeat_length|].
  rewrite leaf_types_custom, total_size_custom. 
  induction IH as [|[n t] fs H _ IHl]; [reflexivity|]. rewrite fields_size_cons. cbn [fields_leaf_types flat_map snd].
  rewrite app_length. cbn [snd] in H. fold (fields_leaf_types fs). lia.
Qed.

Lemma names_unique_custom name fs : names_unique (TCustom name fs) <->
  NoDup (map fst fs) /\ Forall (fun p => names_unique (snd p)) fs.
Proof.
  cbn. apply and_iff_compat_l. induction fs as [|[n t] fs IH]; split; intros H; try constructor; try exact I.
  - exact (proj1 H).
  - apply IH, H.
  - inversion H; assumption.
  - inversion H; subst. now apply IH.
Qed.

(** The field loop of build_access_sequence as a separate function. *)
Fixpoint bas_fields (owner : ty) (fs : list (string * ty)) (index : nat) (output : list access) : bool * nat * list access :=
  match fs with
  | [] => (false, index, output)
  | (fname, ft) :: fs' =>
      let '(found, index, output) := build_access_sequence ft index output in
      if found then (true, index, output ++ [AField owner fname]) else bas_fields owner fs' index output
  end.
Lemma bas_custom name fs index output :
  build_access_sequence (TCustom name fs) index output = bas_fields (TCustom name fs) fs index output.
Proof.
  cbn. generalize (TCustom name fs) as owner; intros owner. revert index output.
  induction fs as [|[n t] fs IH]; intros index output; cbn; [reflexivity|].
  destruct (build_access_sequence t index output) as [[[] i] o]; [reflexivity|apply IH].
Qed.

(** The path of the i-th leaf. *)
Fixpoint path_of (t : ty) (i : nat) : list access :=
  match t with
  | TScalar _ => []
  | TMatrix r c => [AMatrix r c i]
  | TCustom name fields =>
      (fix go (fs : list (string * ty)) (i : nat) : list access :=
         match fs with
         | [] => []
         | (fname, ft) :: fs' =>
             if i <? total_size ft then AField (TCustom name fields) fname :: path_of ft i
             else go fs' (i - total_size ft)
         end) fields i
  end.
Fixpoint path_of_fields (owner : ty) (fs : list (string * ty)) (i : nat) : list access :=
  match fs with
  | [] => []
  | (fname, ft) :: fs' =>
      if i <? total_size ft then AField owner fname :: path_of ft i
      else path_of_fields owner fs' (i - total_size ft)
  end.
Lemma path_of_custom name fs i : path_of (TCustom name fs) i = path_of_fields (TCustom name fs) fs i.
Proof.
  cbn [path_of]. generalize (TCustom name fs) as owner; intros owner. revert i.
  induction fs as [|[n t] fs IH]; intros i; cbn [path_of_fields]; [reflexivity|]. now rewrite IH.
Qed.

Lemma bas_spec t : forall i out,
  (i < total_size t -> exists j, build_access_sequence t i out = (true, j, out ++ rev (path_of t i))) /\
  (total_size t <= i -> build_access_sequence t i out = (false, i - total_size t, out)).
Proof.
  induction t as [n|r c|name fs IH] using ty_nested_ind; intros i out.
  - cbn. destruct (Nat.eqb_spec i 0); split; intros H; try lia.
    + exists i. now rewrite app_nil_r.
    + reflexivity.
  - cbn [total_size build_access_sequence path_of]. destruct (Nat.ltb_spec i (r * c)); split; intros H'; try lia.
    + exists i. reflexivity.
    + reflexivity.
  - rewrite total_size_custom, bas_custom, path_of_custom. generalize (TCustom name fs) as owner; intros owner.
    revert i out. induction IH as [|[n t] fs H _ IHl]; intros i out; cbn [bas_fields path_of_fields].
    + cbn. split; [lia|]. intros _. now rewrite Nat.sub_0_r.
    + rewrite fields_size_cons. cbn [snd] in H. destruct (H i out) as [H1 H2].
      destruct (Nat.ltb_spec i (total_size t)) as [L|L].
      * destruct (H1 L) as [j ->]. split; [|lia]. intros _. exists j. cbn [rev]. now rewrite app_assoc.
      * rewrite (H2 L). destruct (IHl (i - total_size t) out) as [I1 I2]. split; intros L'.
        -- apply I1. lia.
        -- rewrite I2 by lia. f_equal. f_equal. lia.
Qed.

Lemma access_sequence_ok t i : i < total_size t -> determine_access_sequence t i = Ok (path_of t i).
Proof.
  intros H. unfold determine_access_sequence. destruct (bas_spec t i []) as [H1 _].
  destruct (H1 H) as [j ->]. cbn [app]. now rewrite rev_involutive.
Qed.
Lemma access_sequence_throws t i : total_size t <= i -> determine_access_sequence t i = Throws.
Proof.
  intros H. unfold determine_access_sequence. destruct (bas_spec t i []) as [_ H1]. now rewrite (H1 H).
Qed.

Lemma path_of_member t : forall i, i < total_size t -> member_path t (path_of t i).
Proof.
  induction t as [n|r c|name fs IH] using ty_nested_ind; intros i H.
  - constructor.
  - constructor. exact H.
  - rewrite path_of_custom. rewrite total_size_custom in H.
    assert (G : forall fs', incl fs' fs -> Forall (fun p => forall i, i < total_size (snd p) -> member_path (snd p) (path_of (snd p) i)) fs' ->
      forall i, i < fields_size fs' -> member_path (TCustom name fs) (path_of_fields (TCustom name fs) fs' i)).
    { induction fs' as [|[n t] fs' IHl]; intros Hin Hf k Hk; [cbn in Hk; lia|].
      inversion Hf as [|? ? Hf1 Hf2]; subst. cbn [path_of_fields].
      rewrite fields_size_cons in Hk.
      destruct (Nat.ltb_spec k (total_size t)) as [L|L].
      - apply MP_field with (ft := t); [apply Hin; left; reflexivity|]. apply (Hf1 k L).
      - apply IHl; [intros x Hx; apply Hin; right; exact Hx|exact Hf2|lia]. }
    apply G; [apply incl_refl|exact IH|exact H].
Qed.

Lemma fields_size_app a b : fields_size (a ++ b) = fields_size a + fields_size b.
Proof. unfold fields_size. rewrite map_app, list_sum_app. reflexivity. Qed.


(** Every member path is the path of some leaf. *)
Lemma member_path_index t path : names_unique t -> member_path t path ->
  exists i, i < total_size t /\ path_of t i = path.
Proof.
  intros Hu H. induction H as [n|r c e He|name fields fname ft path Hin Hp IH].
  - exists 0. cbn. split; [lia|reflexivity].
  - exists e. cbn. split; [lia|reflexivity].
  - apply names_unique_custom in Hu. destruct Hu as [_ Hu].
    rewrite Forall_forall in Hu. specialize (Hu _ Hin). cbn in Hu. destruct (IH Hu) as (i & Hi & E).
    apply in_split in Hin. destruct Hin as (l1 & l2 & ->).
    exists (fields_size l1 + i). split.
    + rewrite total_size_custom, fields_size_app, fields_size_cons. lia.
    + rewrite path_of_custom. generalize (TCustom name (l1 ++ (fname, ft) :: l2)) as owner; intros owner.
      clear Hu IH. induction l1 as [|[n t] l1 IHl]; cbn [app path_of_fields].
      * change (fields_size [] + i) with i. destruct (Nat.ltb_spec i (total_size ft)); [now rewrite E|lia].
      * rewrite fields_size_cons. destruct (Nat.ltb_spec (total_size t + fields_size l1 + i) (total_size t)); [lia|].
        replace (total_size t + fields_size l1 + i - total_size t) with (fields_size l1 + i) by lia. apply IHl.
Qed.

(** Construction. *)
Section Construct.
  Context {X : Type}.

  Fixpoint tc_fields (contents : list X) (owner : ty) (fs : list (string * ty)) (index : nat) (out : list (string * obj X))
    : outcome (obj X * nat) :=
    match fs with
    | [] => Ok (OCustom owner out, index)
    | (fname, ft) :: fs' =>
        let* r := type_constructor contents ft index in
        let (v, i) := r in
        tc_fields contents owner fs' i (out ++ [(fname, v)])
    end.
  Lemma tc_custom contents name fs index :
    type_constructor contents (TCustom name fs) index = tc_fields contents (TCustom name fs) fs index [].
  Proof.
    cbn [type_constructor]. generalize (TCustom name fs) as owner; intros owner.
    match goal with |- ?g fs index [] = _ => set (go := g) end.
    assert (G : forall fs index out, go fs index out = tc_fields contents owner fs index out).
    { clear. induction fs as [|[n t] fs IH]; intros index out; [reflexivity|].
      cbn [tc_fields]. unfold go at 1; fold go.
      destruct (type_constructor contents t index) as [[v i]| | | |]; cbn; try reflexivity. apply IH. }
    apply G.
  Qed.

  Lemma nth_firstn_skipn (l : list X) a n e : e < n -> nth_error (firstn n (skipn a l)) e = nth_error l (a + e).
  Proof.
    revert l n e. induction a as [|a IH]; intros l n e He; cbn [skipn plus].
    - revert n e He. induction l as [|x l IHl]; intros n e He; [rewrite firstn_nil; destruct e; reflexivity|].
      destruct n; [lia|]. destruct e; [reflexivity|]. cbn. apply IHl. lia.
    - destruct l as [|x l]; [rewrite firstn_nil; destruct e; reflexivity|]. cbn. now apply IH.
  Qed.

  Definition built_ok (contents : list X) (t : ty) (base : nat) (o : obj X) : Prop :=
    forall i, i < total_size t -> read o (path_of t i) = nth_error contents (base + i).

  Lemma member_app_notin (l1 l2 : list (string * obj X)) name :
    ~ In name (map fst l1) -> member (l1 ++ l2) name = member l2 name.
  Proof.
    induction l1 as [|[n o] l1 IH]; cbn; intros H; [reflexivity|].
    destruct (String.eqb_spec n name) as [E|E]; [exfalso; apply H; now left|]. apply IH. tauto.
  Qed.
  Lemma member_app_in (l1 l2 : list (string * obj X)) name o :
    member l1 name = Some o -> member (l1 ++ l2) name = Some o.
  Proof.
    induction l1 as [|[n o'] l1 IH]; cbn; [discriminate|].
    destruct (String.eqb n name); [trivial|apply IH].
  Qed.

  Lemma type_constructor_ok contents t : names_unique t -> forall base, base + total_size t <= length contents ->
    exists o, type_constructor contents t base = Ok (o, base + total_size t) /\ built_ok contents t base o.
  Proof.
    induction t as [n|r c|name fs IH] using ty_nested_ind; intros Hu base Hb.
    - cbn in *. destruct (nth_error contents base) as [x|] eqn:E.
      + exists (OScalar x). split; [reflexivity|]. intros i Hi. cbn in Hi. assert (i = 0) by lia. subst i.
        cbn. now rewrite Nat.add_0_r.
      + apply nth_error_None in E. lia.
    - cbn [total_size type_constructor] in *. destruct (Nat.leb_spec (base + r * c) (length contents)); [|lia].
      eexists. split; [reflexivity|]. intros i Hi. cbn [total_size] in Hi. cbn [path_of read read1].
      rewrite !Nat.eqb_refl. cbn [andb].
      assert (Hc : c <> 0) by (intros ->; rewrite Nat.mul_0_r in Hi; lia).
      destruct (Nat.ltb_spec (Nat.div i c) r) as [L|L].
      2:{ pose proof (Nat.div_lt_upper_bound i c r Hc). lia. }
      replace (Nat.div i c * c + Nat.modulo i c) with i by (rewrite Nat.mul_comm; apply Nat.div_mod; exact Hc).
      rewrite nth_firstn_skipn by exact Hi.
      destruct (nth_error contents (base + i)) eqn:E; [reflexivity|]. apply nth_error_None in E. lia.
    - rewrite total_size_custom in *. rewrite tc_custom. apply names_unique_custom in Hu. destruct Hu as [Hnd Hu].
      assert (G : forall fs' (done : list (string * ty)) (out : list (string * obj X)) b,
        (forall n, In n (map fst done) -> ~ In n (map fst fs')) -> NoDup (map fst fs') ->
        Forall (fun p => names_unique (snd p)) fs' ->
        Forall (fun p => names_unique (snd p) -> forall base, base + total_size (snd p) <= length contents ->
           exists o, type_constructor contents (snd p) base = Ok (o, base + total_size (snd p)) /\ built_ok contents (snd p) base o) fs' ->
        map fst out = map fst done ->
        b + fields_size fs' <= length contents ->
        exists out', tc_fields contents (TCustom name fs) fs' b out = Ok (OCustom (TCustom name fs) (out ++ out'), b + fields_size fs') /\
          map fst out' = map fst fs' /\
          forall i, i < fields_size fs' -> forall owner' t',
            read (OCustom t' (out ++ out')) (path_of_fields owner' fs' i) = nth_error contents (b + i)).
      { induction fs' as [|[n t] fs' IHl]; intros done out b Hdis Hnd' Hu' HI Hout Hb'.
        - exists []. cbn [tc_fields]. rewrite app_nil_r. split; [f_equal; f_equal; cbn; lia|]. split; [reflexivity|].
          intros i Hi. cbn in Hi. lia.
        - inversion Hu' as [|? ? Hu1 Hu2]; subst. inversion HI as [|? ? HI1 HI2]; subst. cbn [snd] in *.
          inversion Hnd' as [|? ? Hn1 Hn2]; subst.
          rewrite fields_size_cons in *. cbn [tc_fields].
          destruct (HI1 Hu1 b ltac:(lia)) as (o & -> & Ho). cbn [bind].
          destruct (IHl (done ++ [(n, t)]) (out ++ [(n, o)]) (b + total_size t)) as (out' & E & Hm & Hr); try assumption.
          + intros m Hm Hm'. rewrite map_app in Hm. apply in_app_or in Hm. destruct Hm as [Hm|[Hm|[]]].
            * apply (Hdis m Hm). right; exact Hm'.
            * cbn in Hm. subst m. contradiction.
          + rewrite !map_app, Hout. reflexivity.
          + lia.
          + exists ((n, o) :: out'). rewrite E. split.
            { rewrite <- app_assoc. cbn [app]. f_equal. f_equal. lia. }
            split; [cbn; now rewrite Hm|].
            intros i Hi owner' t'. cbn [path_of_fields].
            destruct (Nat.ltb_spec i (total_size t)) as [L|L].
            * cbn [read read1]. rewrite member_app_notin.
              -- cbn [member]. rewrite String.eqb_refl. apply Ho. exact L.
              -- rewrite Hout. intros Hin. apply (Hdis n Hin). left; reflexivity.
            * specialize (Hr (i - total_size t) ltac:(lia) owner' t'). rewrite <- app_assoc in Hr. cbn [app] in Hr.
              rewrite Hr. f_equal. lia. }
      destruct (G fs [] [] base) as (out' & E & _ & Hr); try assumption.
      + intros n [].
      + reflexivity.
      + cbn [app] in *. rewrite E. eexists. split; [reflexivity|].
        intros i Hi. rewrite total_size_custom in Hi. rewrite path_of_custom. apply Hr. exact Hi.
  Qed.
End Construct.

(** iterate_custom_type_fields visits the arguments in order, each exactly once. *)
Definition expand (l : list (nat * ty)) : list nat :=
  flat_map (fun p => match snd p with TMatrix r c => map (fun i => fst p + i) (seq 0 (r * c)) | _ => [fst p] end) l.
Definition casts (l : list (nat * ty)) : list numeric :=
  flat_map (fun p => match snd p with TScalar n => [n] | TMatrix r c => map (fun _ => floating_point) (seq 0 (r * c)) | _ => [] end) l.

Fixpoint it_fields (fs : list (string * ty)) (index : nat) : list (nat * ty) * nat :=
  match fs with
  | [] => ([], index)
  | (_, ft) :: fs' => let (l1, i1) := iterate_fields ft index in let (l2, i2) := it_fields fs' i1 in (l1 ++ l2, i2)
  end.
Lemma it_custom name fs index : iterate_fields (TCustom name fs) index = it_fields fs index.
Proof.
  cbn. revert index. induction fs as [|[n t] fs IH]; intros index; cbn; [reflexivity|].
  destruct (iterate_fields t index) as [l1 i1]. now rewrite IH.
Qed.

Lemma map_add_seq b n : map (fun i => b + i) (seq 0 n) = seq b n.
Proof.
  revert b. induction n as [|n IH]; intros b; [reflexivity|]. cbn [seq map]. rewrite Nat.add_0_r. f_equal.
  rewrite <- seq_shift, map_map. rewrite <- (IH (S b)). apply map_ext. intros; lia.
Qed.

Lemma iterate_spec t : forall b, snd (iterate_fields t b) = b + total_size t /\
  expand (fst (iterate_fields t b)) = seq b (total_size t) /\ casts (fst (iterate_fields t b)) = leaf_types t.
Proof.
  induction t as [n|r c|name fs IH] using ty_nested_ind; intros b.
  - cbn. auto.
  - cbn [iterate_fields fst snd total_size leaf_types]. split; [reflexivity|].
    unfold expand, casts; cbn [flat_map snd fst]. rewrite !app_nil_r. split; [apply map_add_seq|].
    generalize (r * c); clear. intros n. generalize 0. induction n as [|n IH]; intros a; cbn; [reflexivity|]. now rewrite IH.
  - rewrite total_size_custom, it_custom, leaf_types_custom. revert b. induction IH as [|[n t] fs H _ IHl]; intros b.
    + cbn. split; [lia|split; reflexivity].
    + cbn [it_fields]. cbn [snd] in H. destruct (H b) as (H1 & H2 & H2').
      destruct (iterate_fields t b) as [l1 i1]. cbn [fst snd] in H1, H2, H2'. subst i1.
      destruct (IHl (b + total_size t)) as (H3 & H4 & H4').
      destruct (it_fields fs (b + total_size t)) as [l2 i2]. cbn [fst snd] in *.
      rewrite fields_size_cons. split; [lia|]. split.
      * unfold expand in *. rewrite flat_map_app, H2, H4. now rewrite <- seq_app.
      * unfold casts in *. rewrite flat_map_app, H2', H4'. reflexivity.
Qed.

(** Member types. *)
Lemma nth_error_repeat_lt {A} (a : A) n i : i < n -> nth_error (repeat a n) i = Some a.
Proof. revert n. induction i; intros [|n] H; cbn; try lia; [reflexivity|]. apply IHi; lia. Qed.

Lemma field_by_name_unique fs n t : NoDup (map fst fs) -> In (n, t) fs -> field_by_name fs n = Some t.
Proof.
  induction fs as [|[m u] fs IH]; cbn; intros Hnd Hin; [contradiction|].
  inversion Hnd as [|? ? H1 H2]; subst. destruct Hin as [E|Hin].
  - injection E as -> ->. now rewrite String.eqb_refl.
  - destruct (String.eqb_spec m n) as [->|_]; [|now apply IH].
    exfalso. apply H1. change n with (fst (n, t)). now apply in_map.
Qed.

Definition of_opt {A} (o : option A) : outcome A := match o with Some a => Ok a | None => Throws end.

Definition last_type (path : list access) : outcome numeric :=
  match rev path with
  | [] => Throws
  | AMatrix _ _ _ :: _ => Ok floating_point
  | AField (TCustom _ fs) fname :: _ =>
      match field_by_name fs fname with Some (TScalar n) => Ok n | Some _ => Throws | None => UB end
  | AField _ _ :: _ => Throws
  end.

Lemma last_type_cons a b l : last_type (a :: b :: l) = last_type (b :: l).
Proof.
  unfold last_type. cbn [rev]. destruct (rev l ++ [b]) as [|x y] eqn:E; [destruct (rev l); discriminate|]. reflexivity.
Qed.

Lemma path_of_last t : names_unique t -> forall i, i < total_size t -> path_of t i <> [] ->
  last_type (path_of t i) = of_opt (nth_error (leaf_types t) i).
Proof.
  induction t as [n|r c|name fs IH] using ty_nested_ind; intros Hu i Hi Hne.
  - cbn in Hne. congruence.
  - cbn [path_of leaf_types]. cbn in Hi. rewrite nth_error_repeat_lt by exact Hi. reflexivity.
  - apply names_unique_custom in Hu. destruct Hu as [Hnd Hu].
    rewrite path_of_custom, leaf_types_custom. rewrite total_size_custom in Hi.
    assert (G : forall fs', incl fs' fs -> forall i, i < fields_size fs' ->
      last_type (path_of_fields (TCustom name fs) fs' i) = of_opt (nth_error (fields_leaf_types fs') i)).
    { clear i Hi Hne. induction fs' as [|[n t] fs' IHl]; intros Hin i Hi; [cbn in Hi; lia|].
      rewrite fields_size_cons in Hi. cbn [path_of_fields fields_leaf_types flat_map snd].
      fold (fields_leaf_types fs').
      assert (Hin1 : In (n, t) fs) by (apply Hin; left; reflexivity).
      destruct (Nat.ltb_spec i (total_size t)) as [L|L].
      - rewrite nth_error_app1 by (rewrite leaf_types_length; exact L).
        rewrite Forall_forall in IH, Hu.
        destruct (path_of t i) as [|a l] eqn:E.
        + (* scalar leaf *)
          unfold last_type. cbn [rev app]. rewrite (field_by_name_unique fs n t Hnd Hin1).
          pose proof (path_of_member t i L) as Hp. rewrite E in Hp. inversion Hp; subst.
          cbn in L. assert (i = 0) by lia. subst i. reflexivity.
        + rewrite last_type_cons. rewrite <- E. apply (IH _ Hin1); [apply (Hu _ Hin1)|exact L|cbn [snd]; rewrite E; discriminate].
      - rewrite nth_error_app2 by (rewrite leaf_types_length; exact L). rewrite leaf_types_length.
        apply IHl; [intros x Hx; apply Hin; right; exact Hx|lia]. }
    apply G; [apply incl_refl|exact Hi].
Qed.

Lemma member_type_ok name fs i : names_unique (TCustom name fs) -> i < total_size (TCustom name fs) ->
  exists n, determine_member_type (TCustom name fs) i = Ok n /\ nth_error (leaf_types (TCustom name fs)) i = Some n.
Proof.
  intros Hu Hi. unfold determine_member_type. rewrite access_sequence_ok by exact Hi. cbn [bind].
  fold (last_type (path_of (TCustom name fs) i)).
  assert (Hne : path_of (TCustom name fs) i <> []).
  { pose proof (path_of_member _ i Hi) as H. intros E0. rewrite E0 in H. inversion H. }
  rewrite (path_of_last _ Hu i Hi Hne).
  destruct (nth_error (leaf_types (TCustom name fs)) i) as [n|] eqn:E.
  - exists n. split; reflexivity.
  - apply nth_error_None in E. rewrite leaf_types_length in E. lia.
Qed.

(** Compound expressions. *)
Section Compound.
  Context {V : Type} (arg : nat -> nat -> V) (other : nat -> V) (dflt : V).
  Local Notation semc := (sem_c arg other dflt).
  Local Notation sems := (sem_s arg other dflt).

  Lemma sem_construct t args i : semc (CConstruct t args) i = nth i (map sems args) dflt.
  Proof.
    cbn. revert i. induction args as [|a l IH]; intros i; [destruct i; reflexivity|].
    destruct i; [reflexivity|]. cbn. apply IH.
  Qed.

  Lemma create_element_sound c i s : create_element c i = Ok s -> sems s = semc c i.
  Proof.
    destruct c as [t id|t args]; cbn [create_element].
    - intros E; injection E as <-. reflexivity.
    - destruct (nth_error args i) as [a|] eqn:E; [|discriminate]. intros H; injection H as <-.
      rewrite sem_construct. symmetry. apply nth_error_nth with (d := dflt).
      now apply map_nth_error.
  Qed.

  Variable ty_eqb : ty -> ty -> bool.
  Variable c_eqb : compound -> compound -> bool.
  Hypothesis ty_eqb_ok : forall a b, ty_eqb a b = true -> a = b.
  Hypothesis c_eqb_ok : forall a b, c_eqb a b = true -> a = b.

  Lemma existing_elems t args c : maybe_get_existing ty_eqb c_eqb t args = Some c ->
    get_custom_type c = t /\ args <> [] /\ args = map (SElem c) (seq 0 (length args)).
  Proof.
    unfold maybe_get_existing. destruct args as [|[p [|i]|id] rest]; try discriminate.
    destruct (ty_eqb (get_custom_type p) t) eqn:Et; [|discriminate]. apply ty_eqb_ok in Et.
    set (go := fix go (l : list sexpr) (i : nat) : option compound := _).
    assert (G : forall l i, go l i = Some c -> c = p /\ l = map (SElem p) (seq i (length l))).
    { induction l as [|[q j|id] l IH]; intros i H; cbn in H.
      - injection H as ->. split; reflexivity.
      - destruct (Nat.eqb_spec j i) as [->|]; [|discriminate]. cbn [andb] in H.
        destruct (c_eqb q p) eqn:Eq; [|discriminate]. apply c_eqb_ok in Eq. subst q.
        destruct (IH (S i) H) as [-> E]. split; [reflexivity|]. cbn [length seq map]. f_equal. exact E.
      - discriminate. }
    intros H. destruct (G rest 1 H) as [-> E]. split; [exact Et|]. split; [discriminate|].
    cbn [length seq map]. f_equal. exact E.
  Qed.

  Lemma create_construction_sound t args c : List.length args = total_size t ->
    create_construction ty_eqb c_eqb t args = Ok c ->
    get_custom_type c = t /\ forall i, i < total_size t -> semc c i = nth i (map sems args) dflt.
  Proof.
    intros Hl. unfold create_construction.
    destruct (maybe_get_existing ty_eqb c_eqb t args) as [c'|] eqn:E.
    - intros H; injection H as ->. destruct (existing_elems t args c E) as (Ht & _ & Ea).
      split; [exact Ht|]. intros i Hi.
      rewrite Ea, map_map. change (fun x => sems (SElem c x)) with (fun x => semc c x).
      rewrite nth_indep with (d' := semc c 0) by (rewrite map_length, seq_length; lia).
      rewrite map_nth with (f := fun x => semc c x). rewrite seq_nth by lia. reflexivity.
    - rewrite Hl, Nat.eqb_refl. intros H; injection H as <-. split; [reflexivity|].
      intros i Hi. apply sem_construct.
  Qed.
End Compound.
