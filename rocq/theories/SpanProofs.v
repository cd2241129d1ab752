From Coq Require Import ZArith List Lia.
From Verif Require Import Outcome CheckedIntProofs SpanModel SpanSpec.
Import ListNotations.
Open Scope Z_scope.

Lemma wrap64_id z : in_i64 z -> wrap64 z = z.
Proof. unfold_range. unfold wrap64. intros H. rewrite Z.mod_small by lia. lia. Qed.

(** Every axis product and every trailing partial sum fits; the strides are sizes. *)
Fixpoint index_fits (strides idx : list Z) : Prop :=
  match strides, idx with
  | s :: ss, i :: is => in_i64 s /\ in_i64 (s * i) /\ in_i64 (dot (s :: ss) (i :: is)) /\ index_fits ss is
  | _, _ => True
  end.

Lemma compute_index_ok strides idx : length strides = length idx -> strides <> [] -> index_fits strides idx ->
  compute_index_internal strides idx = Ok (dot strides idx).
Proof.
  revert idx. induction strides as [|s ss IH]; intros idx Hl Hn Hf; [congruence|].
  destruct idx as [|i is]; [discriminate|]. cbn [index_fits] in Hf. destruct Hf as (H0 & H1 & H2 & H3).
  destruct ss as [|s2 ss].
  - destruct is; [|discriminate]. cbn in *. rewrite wrap64_id by assumption. f_equal. lia.
  - destruct is as [|i2 is]; [discriminate|].
    change (compute_index_internal (s :: s2 :: ss) (i :: i2 :: is)) with
      (bind (mach_mul (wrap64 s) i) (fun m => bind (compute_index_internal (s2 :: ss) (i2 :: is)) (fun r => mach_add m r))).
    unfold mach_mul, mach_add. rewrite (wrap64_id s) by assumption. rewrite (mach_ok (s * i)) by assumption. cbn [bind].
    rewrite (IH (i2 :: is)); [|cbn in *; lia|discriminate|assumption]. cbn [bind].
    cbn [dot] in H2. rewrite mach_ok by (cbn [dot]; exact H2). reflexivity.
Qed.

Lemma size_pos dims : Forall (fun d => 0 < d) dims -> 0 < size dims.
Proof. induction 1; cbn [size fold_right]; [lia|]. fold (size l). nia. Qed.

Lemma in_range_pos dims idx : in_range dims idx -> Forall (fun d => 0 < d) dims.
Proof. induction 1; constructor; [lia|assumption]. Qed.

Lemma row_major_bound dims idx : in_range dims idx -> 0 <= dot (row_major dims) idx < size dims.
Proof.
  induction 1 as [|d i ds is Hi Hr IH]; cbn [row_major dot size fold_right]; [lia|].
  fold (size ds). pose proof (size_pos ds (in_range_pos _ _ Hr)). nia.
Qed.

Lemma row_major_inj dims i1 i2 : in_range dims i1 -> in_range dims i2 ->
  dot (row_major dims) i1 = dot (row_major dims) i2 -> i1 = i2.
Proof.
  intros H. revert i2. induction H as [|d i ds is Hi Hr IH]; intros i2 H2 E.
  - inversion H2. reflexivity.
  - inversion H2 as [|d' j ds' js Hj Hr2]; subst. cbn [row_major dot] in E.
    pose proof (row_major_bound ds is Hr). pose proof (row_major_bound ds js Hr2).
    assert (i = j) by nia. subst j. f_equal. apply IH; [assumption|lia].
Qed.

Lemma row_major_surj dims k : Forall (fun d => 0 < d) dims -> 0 <= k < size dims ->
  exists idx, in_range dims idx /\ dot (row_major dims) idx = k.
Proof.
  intros H. revert k. induction H as [|d ds Hd Hds IH]; intros k Hk.
  - exists []. cbn [size fold_right] in Hk. split; [constructor|cbn; lia].
  - cbn [size fold_right] in Hk. fold (size ds) in Hk. pose proof (size_pos ds Hds) as Hp.
    destruct (IH (k mod size ds)) as (idx & Hr & E); [apply Z.mod_pos_bound; exact Hp|].
    exists (k / size ds :: idx). split.
    + constructor; [|exact Hr]. split; [apply Z.div_pos; lia|]. apply Z.div_lt_upper_bound; lia.
    + cbn [row_major dot]. rewrite E. pose proof (Z.div_mod k (size ds)). lia.
Qed.

Lemma col_major_scale acc dims : forall idx, dot (col_major_from acc dims) idx = acc * dot (col_major dims) idx.
Proof.
  unfold col_major.
  assert (H : forall acc c idx, dot (col_major_from (acc * c) dims) idx = acc * dot (col_major_from c dims) idx).
  { induction dims as [|d ds IH]; intros a c idx; cbn [col_major_from]; [destruct idx; cbn; lia|].
    destruct idx as [|i is]; cbn [dot]; [lia|]. rewrite <- (Z.mul_assoc a c d), IH. ring. }
  intros idx. rewrite <- (Z.mul_1_r acc) at 1. apply H.
Qed.

Lemma col_major_cons d ds i is : dot (col_major (d :: ds)) (i :: is) = i + d * dot (col_major ds) is.
Proof.
  unfold col_major at 1. cbn [col_major_from dot]. rewrite col_major_scale. lia.
Qed.

Lemma col_major_bound dims idx : in_range dims idx -> 0 <= dot (col_major dims) idx < size dims.
Proof.
  induction 1 as [|d i ds is Hi Hr IH]; [cbn; lia|].
  rewrite col_major_cons. cbn [size fold_right]. fold (size ds). nia.
Qed.

Lemma col_major_inj dims i1 i2 : in_range dims i1 -> in_range dims i2 ->
  dot (col_major dims) i1 = dot (col_major dims) i2 -> i1 = i2.
Proof.
  intros H. revert i2. induction H as [|d i ds is Hi Hr IH]; intros i2 H2 E.
  - inversion H2. reflexivity.
  - inversion H2 as [|d' j ds' js Hj Hr2]; subst. rewrite !col_major_cons in E.
    set (A := dot (col_major ds) is) in *. set (B := dot (col_major ds) js) in *.
    assert (AB : A = B).
    { destruct (Z.lt_trichotomy A B) as [L|[L|L]]; [|exact L|].
      - assert (d * 1 <= d * (B - A)) by (apply Z.mul_le_mono_nonneg_l; lia). lia.
      - assert (d * 1 <= d * (A - B)) by (apply Z.mul_le_mono_nonneg_l; lia). lia. }
    assert (i = j) by (rewrite AB in E; lia). subst j. f_equal. apply IH; assumption.
Qed.

(** All intermediate values fit when the buffer size does. *)
Lemma row_major_fits dims idx : in_range dims idx -> size dims <= INT64_MAX -> index_fits (row_major dims) idx.
Proof.
  intros H Hs. induction H as [|d i ds is Hi Hr IH]; [exact I|].
  cbn [row_major index_fits]. pose proof (row_major_bound (d :: ds) (i :: is)) as B.
  cbn [row_major] in B. specialize (B (Forall2_cons _ _ Hi Hr)).
  cbn [size fold_right] in *. fold (size ds) in *.
  pose proof (size_pos ds (in_range_pos _ _ Hr)) as Hp.
  pose proof (row_major_bound ds is Hr) as B2.
  split; [unfold_range; nia|]. split; [unfold_range; nia|].
  split; [unfold_range; lia|]. apply IH. nia.
Qed.

Lemma col_major_fits_from dims idx : forall acc, 0 < acc -> in_range dims idx -> acc * size dims <= INT64_MAX ->
  index_fits (col_major_from acc dims) idx.
Proof.
  intros acc Ha H. revert acc Ha. induction H as [|d i ds is Hi Hr IH]; intros acc Ha Hs; [exact I|].
  cbn [col_major_from index_fits].
  pose proof (col_major_bound ds is Hr) as B2.
  cbn [size fold_right] in *. fold (size ds) in *.
  pose proof (size_pos ds (in_range_pos _ _ Hr)) as Hp.
  assert (Hc : dot (acc :: col_major_from (acc * d) ds) (i :: is) = acc * i + acc * d * dot (col_major ds) is).
  { cbn [dot]. now rewrite col_major_scale. }
  rewrite Hc.
  assert (acc * d * 1 <= acc * d * size ds) by (apply Z.mul_le_mono_nonneg_l; nia).
  assert (acc * i < acc * d) by nia.
  assert (0 <= acc * i) by nia.
  assert (acc * d * dot (col_major ds) is <= acc * d * (size ds - 1)) by (apply Z.mul_le_mono_nonneg_l; nia).
  assert (0 <= acc * d * dot (col_major ds) is) by nia.
  assert (acc * 1 <= acc * (d * size ds)) by (apply Z.mul_le_mono_nonneg_l; nia).
  split; [unfold_range; lia|]. split; [unfold_range; lia|].
  split; [unfold_range; lia|]. apply IH; [nia|lia].
Qed.

Lemma in_range_length dims idx : in_range dims idx -> length dims = length idx.
Proof. induction 1; cbn; congruence. Qed.
Lemma row_major_length dims : length (row_major dims) = length dims.
Proof. induction dims; cbn; congruence. Qed.
Lemma col_major_from_length acc dims : length (col_major_from acc dims) = length dims.
Proof. revert acc; induction dims; cbn; intros; congruence. Qed.

Lemma dot_add_idx s a b : length s = length a -> length a = length b ->
  dot s (add_idx a b) = dot s a + dot s b.
Proof.
  revert a b. induction s as [|x s IH]; intros [|y a] [|z b]; cbn; intros; try lia; try discriminate.
  rewrite IH by lia. ring.
Qed.

(** Addresses of dense spans. *)
Lemma row_major_at p dims idx : dims <> [] -> in_range dims idx -> size dims <= INT64_MAX ->
  in_i64 p -> in_i64 (p + size dims) ->
  span_at (make_span (Some p) dims (row_major dims)) idx = Ok (p + dot (row_major dims) idx) /\
  p <= p + dot (row_major dims) idx < p + size dims.
Proof.
  intros Hn Hr Hs Hp Hps. pose proof (row_major_bound dims idx Hr) as B.
  unfold span_at, compute_index. cbn [sp_strides sp_data].
  rewrite compute_index_ok.
  - cbn [bind]. unfold mach_add. rewrite mach_ok by (unfold_range; lia). split; [reflexivity|lia].
  - rewrite row_major_length. now apply in_range_length.
  - destruct dims; [congruence|discriminate].
  - now apply row_major_fits.
Qed.

Lemma col_major_at p dims idx : dims <> [] -> in_range dims idx -> size dims <= INT64_MAX ->
  in_i64 p -> in_i64 (p + size dims) ->
  span_at (make_span (Some p) dims (col_major dims)) idx = Ok (p + dot (col_major dims) idx) /\
  p <= p + dot (col_major dims) idx < p + size dims.
Proof.
  intros Hn Hr Hs Hp Hps. pose proof (col_major_bound dims idx Hr) as B.
  unfold span_at, compute_index. cbn [sp_strides sp_data].
  rewrite compute_index_ok.
  - cbn [bind]. unfold mach_add. rewrite mach_ok by (unfold_range; lia). split; [reflexivity|lia].
  - unfold col_major. rewrite col_major_from_length. now apply in_range_length.
  - destruct dims; [congruence|discriminate].
  - apply col_major_fits_from; [lia|exact Hr|lia].
Qed.

(** Element of a block = element of the parent at the shifted index. *)
Lemma block_at sp offs dims b idx p : sp_data sp = Some p ->
  length (sp_strides sp) = length offs -> length offs = length idx -> sp_strides sp <> [] ->
  index_fits (sp_strides sp) offs -> index_fits (sp_strides sp) idx ->
  index_fits (sp_strides sp) (add_idx offs idx) ->
  in_i64 (p + dot (sp_strides sp) offs) ->
  span_block sp offs dims = Ok b ->
  sp_dims b = dims /\ sp_strides b = sp_strides sp /\ span_at b idx = span_at sp (add_idx offs idx).
Proof.
  intros Hp H1 H2 Hn F1 F2 F3 F4. unfold span_block. rewrite compute_index_ok by assumption. cbn [bind].
  rewrite Hp. unfold mach_add at 1. rewrite mach_ok by exact F4. cbn [bind]. intros E; injection E as <-.
  split; [reflexivity|]. split; [reflexivity|].
  assert (Hl : length (sp_strides sp) = length (add_idx offs idx)).
  { rewrite H1. clear -H2. revert idx H2. induction offs as [|x l IH]; intros [|y m]; cbn; intros; try discriminate; [reflexivity|].
    f_equal. apply IH. lia. }
  unfold span_at, compute_index. cbn [sp_strides sp_data].
  rewrite !compute_index_ok; try assumption; [|lia]. cbn [bind]. rewrite Hp. unfold mach_add.
  rewrite dot_add_idx by lia. now rewrite Z.add_assoc.
Qed.

(** Padded 2-D storage (Eigen inner/outer strides). *)
Lemma padded_inj rows cols inner outer i j i' j' :
  0 < inner -> inner * (rows - 1) < outer ->
  0 <= i < rows -> 0 <= j < cols -> 0 <= i' < rows -> 0 <= j' < cols ->
  inner * i + outer * j = inner * i' + outer * j' -> i = i' /\ j = j'.
Proof.
  intros Hi Ho H1 H2 H3 H4 E.
  assert (j = j').
  { assert (inner * i <= inner * (rows - 1)) by nia. assert (inner * i' <= inner * (rows - 1)) by nia.
    assert (0 <= inner * i) by nia. assert (0 <= inner * i') by nia. nia. }
  subst j'. split; [nia|reflexivity].
Qed.

Lemma fits2 s1 s2 i j : in_i64 s1 -> in_i64 s2 -> in_i64 (s1 * i) -> in_i64 (s2 * j) -> in_i64 (s1 * i + s2 * j) ->
  index_fits [s1; s2] [i; j].
Proof. cbn. rewrite !Z.add_0_r. tauto. Qed.

Lemma eigen_at (rm : bool) p rows cols inner outer i j :
  0 < inner -> 0 < outer -> 0 <= i < rows -> 0 <= j < cols -> 0 <= p ->
  let k := if rm then outer * i + inner * j else inner * i + outer * j in
  in_i64 inner -> in_i64 outer -> in_i64 (p + k) ->
  span_at (eigen_span rm p rows cols inner outer) [i; j] = Ok (p + k).
Proof.
  intros Hi Ho Hir Hjr Hp k Fi Fo Fk. unfold span_at, compute_index, eigen_span. cbn [sp_strides sp_data].
  assert (0 <= outer * i) by nia. assert (0 <= inner * j) by nia.
  assert (0 <= inner * i) by nia. assert (0 <= outer * j) by nia.
  rewrite compute_index_ok; [|reflexivity|discriminate|].
  - cbn [bind dot]. unfold mach_add. destruct rm; subst k; cbn [dot]; rewrite ?Z.add_0_r;
      rewrite mach_ok by exact Fk; reflexivity.
  - destruct rm; subst k; apply fits2; try assumption; unfold_range; lia.
Qed.

Lemma array_at p n i : 0 <= i < n -> 0 <= p -> in_i64 (p + n) -> span_at (make_array_span p n) [i] = Ok (p + i).
Proof.
  intros H Hp F. unfold span_at, compute_index, make_array_span. cbn [sp_strides sp_data compute_index_internal].
  rewrite Z.mul_1_l, wrap64_id by (unfold_range; lia). cbn [bind]. unfold mach_add. apply mach_ok. unfold_range; lia.
Qed.

Lemma quaternion_at p i : 0 <= i < 4 -> 0 <= p -> in_i64 (p + 4) -> span_at (quaternion_span p) [i; 0] = Ok (p + i).
Proof.
  intros H Hp F. unfold span_at, compute_index, quaternion_span. cbn [sp_strides sp_data].
  rewrite compute_index_ok; [|reflexivity|discriminate|apply fits2; unfold_range; lia].
  cbn [bind dot]. unfold mach_add.
  replace (p + (1 * i + (4 * 0 + 0))) with (p + i) by lia. apply mach_ok. unfold_range; lia.
Qed.

Lemma null_span_index dims idx : dims <> [] -> length dims = length idx -> Forall in_i64 idx ->
  compute_index (make_always_null_span dims) idx = Ok 0.
Proof.
  intros Hn Hl Hi. unfold compute_index, make_always_null_span. cbn [sp_strides].
  assert (D : forall ds is : list Z, dot (map (fun _ : Z => 0) ds) is = 0).
  { induction ds as [|d ds IH]; intros [|x is]; cbn [map dot]; try reflexivity. rewrite IH. lia. }
  rewrite compute_index_ok.
  - now rewrite D.
  - now rewrite map_length.
  - destruct dims; [congruence|discriminate].
  - clear Hn. revert idx Hl Hi. induction dims as [|d ds IH]; intros [|i is] Hl Hi; cbn [map index_fits]; try exact I.
    inversion Hi; subst. change (0 :: map (fun _ : Z => 0) ds) with (map (fun _ : Z => 0) (d :: ds)). rewrite D.
    split; [unfold_range; lia|]. split; [unfold_range; lia|]. split; [unfold_range; lia|].
    apply IH; [cbn in Hl; lia|assumption].
Qed.
