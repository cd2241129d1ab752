(** C38: span element addressing. *)
From Coq Require Import ZArith List Lia.
From Verif Require Import Outcome CheckedIntProofs SpanModel SpanSpec SpanProofs.
Import ListNotations.
Open Scope Z_scope.

(** The linear index is the dot product of strides and indices whenever the products and sums fit a ptrdiff_t. *)
Theorem C38_dot_product : forall sp idx,
  length (sp_strides sp) = length idx -> sp_strides sp <> [] -> index_fits (sp_strides sp) idx ->
  compute_index sp idx = Ok (dot (sp_strides sp) idx).
Proof. intros sp idx. exact (compute_index_ok (sp_strides sp) idx). Qed.
Print Assumptions C38_dot_product.
Example C38_dot_product_ex : compute_index (make_span (Some 100) [3; 4; 5] [1; 3; 12]) [2; 1; 4] = Ok 53.
Proof. vm_compute; reflexivity. Qed.

(** Dense row-major spans of any number of dimensions: in bounds, injective, onto. *)
Theorem C38_row_major : forall p dims, dims <> [] -> size dims <= INT64_MAX -> in_i64 p -> in_i64 (p + size dims) ->
  let at_ idx := span_at (make_span (Some p) dims (row_major dims)) idx in
  (forall idx, in_range dims idx -> exists a, at_ idx = Ok a /\ p <= a < p + size dims) /\
  (forall i1 i2, in_range dims i1 -> in_range dims i2 -> at_ i1 = at_ i2 -> i1 = i2) /\
  (Forall (fun d => 0 < d) dims -> forall a, p <= a < p + size dims ->
     exists idx, in_range dims idx /\ at_ idx = Ok a).
Proof.
  intros p dims Hn Hs Hp Hps at_. subst at_. cbv beta. split; [|split].
  - intros idx Hr. destruct (row_major_at p dims idx Hn Hr Hs Hp Hps) as [E B]. eauto.
  - intros i1 i2 H1 H2.
    destruct (row_major_at p dims i1 Hn H1 Hs Hp Hps) as [-> _].
    destruct (row_major_at p dims i2 Hn H2 Hs Hp Hps) as [-> _].
    intros E. injection E as E. apply (row_major_inj dims); [assumption|assumption|lia].
  - intros Hpos a Ha. destruct (row_major_surj dims (a - p) Hpos ltac:(lia)) as (idx & Hr & E).
    exists idx. split; [exact Hr|]. destruct (row_major_at p dims idx Hn Hr Hs Hp Hps) as [-> _].
    f_equal. lia.
Qed.
Print Assumptions C38_row_major.
Example C38_row_major_ex : row_major [2; 3; 4] = [12; 4; 1]
  /\ span_at (make_span (Some 7) [2; 3; 4] (row_major [2; 3; 4])) [1; 2; 3] = Ok 30.
Proof. split; vm_compute; reflexivity. Qed.

Theorem C38_col_major : forall p dims, dims <> [] -> size dims <= INT64_MAX -> in_i64 p -> in_i64 (p + size dims) ->
  let at_ idx := span_at (make_span (Some p) dims (col_major dims)) idx in
  (forall idx, in_range dims idx -> exists a, at_ idx = Ok a /\ p <= a < p + size dims) /\
  (forall i1 i2, in_range dims i1 -> in_range dims i2 -> at_ i1 = at_ i2 -> i1 = i2).
Proof.
  intros p dims Hn Hs Hp Hps at_. subst at_. cbv beta. split.
  - intros idx Hr. destruct (col_major_at p dims idx Hn Hr Hs Hp Hps) as [E B]. eauto.
  - intros i1 i2 H1 H2.
    destruct (col_major_at p dims i1 Hn H1 Hs Hp Hps) as [-> _].
    destruct (col_major_at p dims i2 Hn H2 Hs Hp Hps) as [-> _].
    intros E. injection E as E. apply (col_major_inj dims); [assumption|assumption|lia].
Qed.
Print Assumptions C38_col_major.
Example C38_col_major_ex : col_major [2; 3; 4] = [1; 2; 6]
  /\ span_at (make_span (Some 7) [2; 3; 4] (col_major [2; 3; 4])) [1; 2; 3] = Ok 30.
Proof. split; vm_compute; reflexivity. Qed.

(** A block's element is the parent's element at the offset index. *)
Theorem C38_block : forall sp offs dims b idx p, sp_data sp = Some p ->
  length (sp_strides sp) = length offs -> length offs = length idx -> sp_strides sp <> [] ->
  index_fits (sp_strides sp) offs -> index_fits (sp_strides sp) idx ->
  index_fits (sp_strides sp) (add_idx offs idx) ->
  in_i64 (p + dot (sp_strides sp) offs) ->
  span_block sp offs dims = Ok b ->
  sp_dims b = dims /\ sp_strides b = sp_strides sp /\ span_at b idx = span_at sp (add_idx offs idx).
Proof. exact block_at. Qed.
Print Assumptions C38_block.
Example C38_block_ex :
  let sp := make_span (Some 10) [4; 6] [6; 1] in
  span_block sp [1; 2] [2; 2] = Ok (make_span (Some 18) [2; 2] [6; 1])
  /\ span_at (make_span (Some 18) [2; 2] [6; 1]) [1; 1] = Ok 25 /\ span_at sp [2; 3] = Ok 25.
Proof. repeat split; vm_compute; reflexivity. Qed.

(** Eigen matrices with inner and outer strides: elements of a padded matrix do not overlap. *)
Theorem C38_eigen : forall (rm : bool) p rows cols inner outer i j i' j',
  0 < inner -> inner * ((if rm then cols else rows) - 1) < outer -> 0 <= p -> in_i64 inner -> in_i64 outer ->
  0 <= i < rows -> 0 <= j < cols -> 0 <= i' < rows -> 0 <= j' < cols ->
  in_i64 (p + (outer + inner) * (rows + cols)) ->
  exists a a', span_at (eigen_span rm p rows cols inner outer) [i; j] = Ok a /\
    span_at (eigen_span rm p rows cols inner outer) [i'; j'] = Ok a' /\
    a = p + (if rm then outer * i + inner * j else inner * i + outer * j) /\
    (a = a' -> i = i' /\ j = j').
Proof.
  intros rm p rows cols inner outer i j i' j' Hi Ho Hp Fi Fo H1 H2 H3 H4 F.
  assert (0 < outer) by (destruct rm; nia).
  assert (L : forall x y, 0 <= x < rows -> 0 <= y < cols ->
    in_i64 (p + (if rm then outer * x + inner * y else inner * x + outer * y))).
  { intros x y Hx Hy. unfold_range. destruct rm; nia. }
  rewrite !eigen_at by (try lia; try assumption; apply L; assumption).
  eexists _, _. split; [reflexivity|]. split; [reflexivity|]. split; [reflexivity|].
  intros E. destruct rm.
  - assert (j = j' /\ i = i'); [|tauto]. apply (padded_inj cols rows inner outer); try assumption; lia.
  - apply (padded_inj rows cols inner outer); try assumption; lia.
Qed.
Print Assumptions C38_eigen.
Example C38_eigen_ex : span_at (eigen_span true 0 2 3 1 4) [1; 2] = Ok 6
  /\ span_at (eigen_span false 0 2 3 1 4) [1; 2] = Ok 9.
Proof. split; vm_compute; reflexivity. Qed.

Theorem C38_array : forall p n i, 0 <= i < n -> 0 <= p -> in_i64 (p + n) ->
  span_at (make_array_span p n) [i] = Ok (p + i).
Proof. exact array_at. Qed.
Print Assumptions C38_array.
Example C38_array_ex : span_at (make_array_span 3 5) [4] = Ok 7.
Proof. vm_compute; reflexivity. Qed.

Theorem C38_quaternion : forall p i, 0 <= i < 4 -> 0 <= p -> in_i64 (p + 4) ->
  span_at (quaternion_span p) [i; 0] = Ok (p + i).
Proof. exact quaternion_at. Qed.
Print Assumptions C38_quaternion.
Example C38_quaternion_ex : span_at (quaternion_span 8) [3; 0] = Ok 11.
Proof. vm_compute; reflexivity. Qed.

(** A null span tests false, and every index (of a 64-bit type) maps to offset zero. *)
Theorem C38_null : forall dims, span_to_bool (make_always_null_span dims) = false /\
  forall idx, dims <> [] -> length dims = length idx -> Forall in_i64 idx ->
    compute_index (make_always_null_span dims) idx = Ok 0.
Proof. intros dims. split; [reflexivity|]. intros idx. exact (null_span_index dims idx). Qed.
Print Assumptions C38_null.
Example C38_null_ex : compute_index (make_always_null_span [3; 2]) [2; 1] = Ok 0
  /\ span_at (make_always_null_span [3; 2]) [2; 1] = UB.
Proof. split; vm_compute; reflexivity. Qed.

(** The usage example in make_span's documentation ("4x6, column-major", strides <1, 6>, 24 elements) addresses outside
    its buffer. *)
Theorem C38_documented_example_refuted : exists i j a,
  in_range [4; 6] [i; j] /\ span_at (doc_column_major_4x6 0) [i; j] = Ok a /\ ~ a < 24.
Proof.
  exists 3, 5, 33. split; [repeat constructor; lia|]. split; [vm_compute; reflexivity|lia].
Qed.
Print Assumptions C38_documented_example_refuted.
