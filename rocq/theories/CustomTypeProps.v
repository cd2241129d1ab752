(** C37: struct flattening and member access agree. *)
From Coq Require Import String List Arith Bool Lia.
From Verif Require Import Outcome CustomTypeModel CustomTypeSpec CustomTypeProofs.
Import ListNotations.
Open Scope string_scope.

(** A nested example type: { a : int, inner : { m : 2x3 matrix, flag : bool }, b : float }. *)
Definition ex_inner : ty := TCustom "Inner" [("m", TMatrix 2 3); ("flag", TScalar boolean)].
Definition ex_type : ty := TCustom "Outer" [("a", TScalar integral); ("inner", ex_inner); ("b", TScalar floating_point)].

(** Every flat index below the size has an access path, and reading that path from the object built out of a flat list of
    values yields the value at that index; construction consumes exactly the values of the type. *)
Theorem C37_construct_read : forall (X : Type) (contents : list X) t,
  names_unique t -> length contents = total_size t ->
  exists o, type_constructor contents t 0 = Ok (o, total_size t) /\
    forall i, i < total_size t ->
      exists path x, determine_access_sequence t i = Ok path /\
        nth_error contents i = Some x /\ read o path = Some x.
Proof.
  intros X contents t Hu Hl.
  destruct (type_constructor_ok contents t Hu 0) as (o & E & Ho); [lia|].
  exists o. split; [exact E|]. intros i Hi.
  destruct (nth_error contents i) as [x|] eqn:Ex; [|apply nth_error_None in Ex; lia].
  exists (path_of t i), x. split; [apply access_sequence_ok; exact Hi|]. split; [reflexivity|].
  rewrite (Ho i Hi). exact Ex.
Qed.
Print Assumptions C37_construct_read.
Example C37_construct_read_ex : exists o,
  type_constructor [10;20;21;22;23;24;25;30;40] ex_type 0 = Ok (o, 9) /\
  determine_access_sequence ex_type 5 = Ok [AField ex_type "inner"; AField ex_inner "m"; AMatrix 2 3 4] /\
  compute_indices 2 3 4 = Ok (1, 1) /\
  read o [AField ex_type "inner"; AField ex_inner "m"; AMatrix 2 3 4] = Some 24 /\
  read o [AField ex_type "b"] = Some 40.
Proof. eexists. repeat split; vm_compute; reflexivity. Qed.

(** Indices outside the type are rejected. *)
Theorem C37_out_of_range : forall t i, total_size t <= i -> determine_access_sequence t i = Throws.
Proof. exact access_sequence_throws. Qed.
Print Assumptions C37_out_of_range.
Example C37_out_of_range_ex : determine_access_sequence ex_type 9 = Throws.
Proof. vm_compute; reflexivity. Qed.

(** The paths of the flat indices are exactly the member paths of the type, without repetition. *)
Theorem C37_paths : forall t, names_unique t ->
  (forall i, i < total_size t -> exists p, determine_access_sequence t i = Ok p /\ member_path t p) /\
  (forall p, member_path t p -> exists i, i < total_size t /\ determine_access_sequence t i = Ok p) /\
  (forall i j p, determine_access_sequence t i = Ok p -> determine_access_sequence t j = Ok p -> i = j).
Proof.
  intros t Hu. split; [|split].
  - intros i Hi. exists (path_of t i). split; [now apply access_sequence_ok|now apply path_of_member].
  - intros p Hp. destruct (member_path_index t p Hu Hp) as (i & Hi & E). exists i. split; [exact Hi|].
    rewrite access_sequence_ok by exact Hi. now rewrite E.
  - intros i j p Ei Ej.
    assert (Hi : i < total_size t).
    { destruct (le_lt_dec (total_size t) i) as [L|L]; [|exact L]. rewrite access_sequence_throws in Ei by exact L. discriminate. }
    assert (Hj : j < total_size t).
    { destruct (le_lt_dec (total_size t) j) as [L|L]; [|exact L]. rewrite access_sequence_throws in Ej by exact L. discriminate. }
    destruct (C37_construct_read nat (seq 0 (total_size t)) t Hu (seq_length _ _)) as (o & _ & H).
    destruct (H i Hi) as (p1 & x1 & E1 & N1 & R1). destruct (H j Hj) as (p2 & x2 & E2 & N2 & R2).
    assert (p1 = p2) by congruence. subst p2.
    assert (x1 = x2) by congruence. subst x2.
    rewrite nth_error_nth' with (d := 0) in N1 by (rewrite seq_length; exact Hi).
    rewrite nth_error_nth' with (d := 0) in N2 by (rewrite seq_length; exact Hj).
    rewrite seq_nth in N1 by exact Hi. rewrite seq_nth in N2 by exact Hj. cbn in *. congruence.
Qed.
Print Assumptions C37_paths.
Example C37_paths_ex : names_unique ex_type /\ total_size ex_type = 9 /\
  member_path ex_type [AField ex_type "inner"; AField ex_inner "flag"] /\
  determine_access_sequence ex_type 7 = Ok [AField ex_type "inner"; AField ex_inner "flag"].
Proof.
  split; [|split; [reflexivity|split; [|reflexivity]]].
  - cbn. repeat split; repeat constructor; cbn; intuition discriminate.
  - eapply MP_field; [right; left; reflexivity|]. eapply MP_field; [right; left; reflexivity|]. constructor.
Qed.

(** Row-major element addressing of matrices. *)
Theorem C37_matrix_indices : forall rows cols e, e < rows * cols ->
  exists r c, compute_indices rows cols e = Ok (r, c) /\ r < rows /\ c < cols /\ e = r * cols + c.
Proof.
  intros rows cols e He. unfold compute_indices. destruct (Nat.ltb_spec e (rows * cols)); [|lia].
  assert (Hc : cols <> 0) by (intros ->; lia).
  exists (e / cols), (e mod cols). split; [reflexivity|]. split; [apply Nat.div_lt_upper_bound; lia|].
  split; [apply Nat.mod_upper_bound; exact Hc|]. rewrite Nat.mul_comm. apply Nat.div_mod. exact Hc.
Qed.
Print Assumptions C37_matrix_indices.
Example C37_matrix_indices_ex : compute_indices 2 3 5 = Ok (1, 2) /\ compute_indices 2 3 6 = Throws.
Proof. split; reflexivity. Qed.

(** Lowering a construction visits every argument once, in order, and casts each to its leaf's numeric type. *)
Theorem C37_construction_operands : forall t,
  construction_operands t = seq 0 (total_size t) /\ construction_casts t = leaf_types t.
Proof.
  intros t. destruct (iterate_spec t 0) as (_ & H1 & H2). split; [exact H1|exact H2].
Qed.
Print Assumptions C37_construction_operands.
Example C37_construction_operands_ex : construction_operands ex_type = [0;1;2;3;4;5;6;7;8]
  /\ nth 7 (construction_casts ex_type) integral = boolean.
Proof. split; reflexivity. Qed.

Theorem C37_member_type : forall name fs i, names_unique (TCustom name fs) -> i < total_size (TCustom name fs) ->
  exists n, determine_member_type (TCustom name fs) i = Ok n /\ nth_error (leaf_types (TCustom name fs)) i = Some n.
Proof. exact member_type_ok. Qed.
Print Assumptions C37_member_type.
Example C37_member_type_ex : determine_member_type ex_type 7 = Ok boolean
  /\ determine_member_type ex_type 3 = Ok floating_point.
Proof. split; vm_compute; reflexivity. Qed.

(** Symbolic elements and constructions keep the value of every element. *)
Theorem C37_element_value : forall (V : Type) (arg : nat -> nat -> V) (other : nat -> V) (dflt : V) c i s,
  create_element c i = Ok s -> sem_s arg other dflt s = sem_c arg other dflt c i.
Proof. intros V arg other dflt c i s. exact (create_element_sound arg other dflt c i s). Qed.
Print Assumptions C37_element_value.
Example C37_element_value_ex :
  create_element (CConstruct ex_inner [SOther 4; SElem (CArg ex_inner 0) 2]) 1 = Ok (SElem (CArg ex_inner 0) 2).
Proof. reflexivity. Qed.

Theorem C37_construction_value : forall (V : Type) (arg : nat -> nat -> V) (other : nat -> V) (dflt : V)
  (ty_eqb : ty -> ty -> bool) (c_eqb : compound -> compound -> bool),
  (forall a b, ty_eqb a b = true -> a = b) -> (forall a b, c_eqb a b = true -> a = b) ->
  forall t args c, length args = total_size t -> create_construction ty_eqb c_eqb t args = Ok c ->
  get_custom_type c = t /\
  forall i, i < total_size t -> sem_c arg other dflt c i = nth i (map (sem_s arg other dflt) args) dflt.
Proof.
  intros V arg other dflt ty_eqb c_eqb H1 H2 t args c. exact (create_construction_sound arg other dflt ty_eqb c_eqb H1 H2 t args c).
Qed.
Print Assumptions C37_construction_value.
Example C37_construction_value_ex :
  let t := TCustom "P" [("x", TScalar floating_point); ("y", TScalar floating_point)] in
  let x := CArg t 0 in
  create_construction (fun _ _ => true) (fun _ _ => true) t [SElem x 0; SElem x 1] = Ok x /\
  create_construction (fun _ _ => true) (fun _ _ => true) t [SElem x 1; SElem x 0] = Ok (CConstruct t [SElem x 1; SElem x 0]).
Proof. split; reflexivity. Qed.

(** Fewer arguments than the type has members are rejected - except when they are the leading elements of an existing
    object: then the whole object is returned and the missing arguments go unnoticed. *)
Theorem C37_arity_refuted : exists t args c, length args < total_size t /\
  forall ty_eqb c_eqb, (forall a, ty_eqb a a = true) -> (forall a, c_eqb a a = true) ->
    create_construction ty_eqb c_eqb t args = Ok c.
Proof.
  set (t := TCustom "P" [("x", TScalar floating_point); ("y", TScalar floating_point)]).
  exists t, [SElem (CArg t 0) 0], (CArg t 0). split; [cbn; lia|].
  intros e c H1 H2. unfold create_construction, maybe_get_existing. cbn [get_custom_type]. now rewrite H1.
Qed.
Print Assumptions C37_arity_refuted.
