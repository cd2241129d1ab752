From Coq Require Import String List Arith ZArith Bool Ring_theory Permutation Lia.
From Verif Require Import Outcome RangesModel IrModel IrSpec.
Import ListNotations.
Open Scope outcome_scope.
Open Scope nat_scope.

Notation cnt := (count_occ Nat.eq_dec).

(** * Lists of names *)
Lemma insert_perm x l : Permutation (insert_name x l) (x :: l).
Proof.
  induction l as [|y t IH]; cbn [insert_name]; [reflexivity|].
  destruct (x <=? y); [reflexivity|]. rewrite IH. apply perm_swap.
Qed.
Lemma sort_perm l : Permutation (sort_names l) l.
Proof. induction l as [|x t IH]; cbn [sort_names]; [reflexivity|]. rewrite insert_perm. now rewrite IH. Qed.
Lemma maybe_sort_perm o l : Permutation (maybe_sort o l) l.
Proof. unfold maybe_sort. destruct (commutative o); [apply sort_perm|reflexivity]. Qed.

Lemma sorted_insert x l : sorted_names l -> sorted_names (insert_name x l).
Proof.
  induction l as [|y t IH]; intros H; [exact I|]. cbn [insert_name].
  destruct (Nat.leb_spec x y) as [L|L]; [split; assumption|].
  destruct t as [|z t]; [cbn; lia|].
  destruct H as [Hyz H]. cbn [insert_name] in *. specialize (IH H).
  destruct (x <=? z); cbn; split; try lia; exact IH || exact H || (destruct IH; auto).
Qed.
Lemma sorted_sort l : sorted_names (sort_names l).
Proof. induction l; [exact I|]. now apply sorted_insert. Qed.
Lemma sorted_maybe o l : commutative o = true -> sorted_names (maybe_sort o l).
Proof. unfold maybe_sort. intros ->. apply sorted_sort. Qed.

Lemma cnt_perm l l' x : Permutation l l' -> cnt l x = cnt l' x.
Proof. intros P. now apply (Permutation_count_occ Nat.eq_dec). Qed.
Lemma cnt_in l x : In x l <-> cnt l x > 0.
Proof. apply count_occ_In. Qed.
Lemma cnt_not_in l x : ~ In x l <-> cnt l x = 0.
Proof. apply count_occ_not_In. Qed.
Lemma cnt_cons x l y : cnt (x :: l) y = (if Nat.eq_dec x y then 1 else 0) + cnt l y.
Proof. cbn. destruct (Nat.eq_dec x y); reflexivity. Qed.
Lemma cnt_repeat x k y : cnt (repeat x k) y = if x =? y then k else 0.
Proof.
  induction k as [|k IH]; cbn [repeat]; [now destruct (x =? y)|].
  rewrite cnt_cons, IH. destruct (Nat.eqb_spec x y); destruct (Nat.eq_dec x y); lia || congruence.
Qed.
Lemma cnt_remove_one x l y : cnt (remove_one x l) y = cnt l y - (if x =? y then 1 else 0).
Proof.
  induction l as [|z t IH]; [cbn; lia|]. cbn [remove_one]. rewrite cnt_cons.
  destruct (Nat.eqb_spec z x) as [->|N].
  - destruct (Nat.eqb_spec x y), (Nat.eq_dec x y); lia || congruence.
  - rewrite cnt_cons, IH. destruct (Nat.eqb_spec x y), (Nat.eq_dec z y); lia || congruence.
Qed.
Lemma cnt_map_replace old new l x :
  old <> new ->
  cnt (map (fun a => if a =? old then new else a) l) x =
  if x =? old then 0 else if x =? new then cnt l new + cnt l old else cnt l x.
Proof.
  intros N. induction l as [|a t IH]; cbn [map]; [cbn; now destruct (x =? old), (x =? new)|].
  rewrite !cnt_cons, IH.
  destruct (Nat.eqb_spec a old), (Nat.eqb_spec x old), (Nat.eqb_spec x new);
    repeat (match goal with |- context [Nat.eq_dec ?a ?b] => destruct (Nat.eq_dec a b) end); subst; lia || congruence.
Qed.
Lemma cnt_remove_up_to k x l y : cnt (remove_up_to k x l) y = cnt l y - (if x =? y then k else 0).
Proof.
  revert k; induction l as [|z t IH]; intros k; [cbn; lia|]. cbn [remove_up_to].
  destruct k as [|k]; [destruct (x =? y); lia|].
  destruct (Nat.eqb_spec z x) as [->|N].
  - rewrite IH, cnt_cons. destruct (Nat.eqb_spec x y), (Nat.eq_dec x y); lia || congruence.
  - rewrite !cnt_cons, IH. destruct (Nat.eqb_spec x y), (Nat.eq_dec z y); lia || congruence.
Qed.
Lemma mem_in x l : mem x l = true <-> In x l.
Proof.
  unfold mem. rewrite existsb_exists. split.
  - intros (y & H & E). apply Nat.eqb_eq in E. now subst.
  - intros H. exists x. split; [assumption|apply Nat.eqb_refl].
Qed.

(** * Updates *)
Lemma upd_same f n v : upd f n v n = v.
Proof. unfold upd. now rewrite Nat.eqb_refl. Qed.
Lemma upd_other f n v m : m <> n -> upd f n v m = f m.
Proof. unfold upd. intros H. destruct (Nat.eqb_spec m n); congruence. Qed.

(** Two graphs that agree except on consumers. *)
Record same_but_cons (g g' : graph) : Prop := {
  sb_next : g_next g' = g_next g;
  sb_op : forall n, op_of g' n = op_of g n;
  sb_ty : forall n, ty_of g' n = ty_of g n;
  sb_args : forall n, args g' n = args g n;
  sb_parent : forall n, parent g' n = parent g n
}.
Lemma sb_refl g : same_but_cons g g.
Proof. split; reflexivity. Qed.
Lemma sb_trans g g' g'' : same_but_cons g g' -> same_but_cons g' g'' -> same_but_cons g g''.
Proof. intros [] []; split; intros; congruence. Qed.
Lemma sb_set_cons g v l : same_but_cons g (set_val g v (with_cons (g_val g v) l)).
Proof.
  split; try reflexivity; intros n; unfold op_of, ty_of, args, parent, set_val, upd; cbn [g_val];
    destruct (Nat.eqb_spec n v); subst; reflexivity.
Qed.
Lemma cons_set_cons g v l n : cons_of (set_val g v (with_cons (g_val g v) l)) n = if n =? v then l else cons_of g n.
Proof. unfold cons_of, set_val, upd. cbn [g_val]. destruct (n =? v); reflexivity. Qed.

Lemma add_consumers_sb l : forall g c, same_but_cons g (add_consumers g l c).
Proof.
  induction l as [|a t IH]; intros g c; [apply sb_refl|]. cbn.
  eapply sb_trans; [apply sb_set_cons|]. apply IH.
Qed.
Lemma add_consumers_cnt l : forall g c v x,
  cnt (cons_of (add_consumers g l c) v) x = cnt (cons_of g v) x + (if x =? c then cnt l v else 0).
Proof.
  induction l as [|a t IH]; intros g c v x; [cbn; destruct (x =? c); lia|].
  change (add_consumers g (a :: t) c) with (add_consumers (add_consumer g a c) t c).
  rewrite IH. unfold add_consumer. rewrite cons_set_cons, cnt_cons.
  destruct (Nat.eqb_spec v a) as [->|N].
  - rewrite cnt_cons. destruct (Nat.eqb_spec x c), (Nat.eq_dec c x), (Nat.eq_dec a a); try lia; congruence.
  - destruct (Nat.eqb_spec x c), (Nat.eq_dec a v); lia || congruence.
Qed.
Lemma remove_consumers_sb l : forall g c, same_but_cons g (remove_consumers g l c).
Proof.
  induction l as [|a t IH]; intros g c; [apply sb_refl|]. cbn.
  eapply sb_trans; [apply sb_set_cons|]. apply IH.
Qed.
Lemma remove_consumers_cnt l : forall g c v x,
  cnt (cons_of (remove_consumers g l c) v) x = cnt (cons_of g v) x - (if x =? c then cnt l v else 0).
Proof.
  induction l as [|a t IH]; intros g c v x; [cbn; destruct (x =? c); lia|].
  change (remove_consumers g (a :: t) c) with (remove_consumers (remove_consumer g a c) t c).
  rewrite IH. unfold remove_consumer. rewrite cons_set_cons, cnt_cons.
  destruct (Nat.eqb_spec v a) as [->|N].
  - rewrite cnt_remove_one. destruct (Nat.eqb_spec x c), (Nat.eqb_spec c x), (Nat.eq_dec a a); try lia; congruence.
  - destruct (Nat.eqb_spec x c), (Nat.eq_dec a v); lia || congruence.
Qed.

(** * What the primitives do, field by field *)
Lemma push_spec g blk o t l : 
  arity_ok o (length l) = true -> ~ In (g_next g) l ->
  exists g', push_value g blk o t l = Ok (g', g_next g) /\
    g_next g' = S (g_next g) /\
    (forall n, op_of g' n = if n =? g_next g then o else op_of g n) /\
    (forall n, ty_of g' n = if n =? g_next g then t else ty_of g n) /\
    (forall n, args g' n = if n =? g_next g then maybe_sort o l else args g n) /\
    (forall n, parent g' n = if n =? g_next g then blk else parent g n) /\
    (forall v c, cnt (cons_of g' v) c =
       (if v =? g_next g then 0 else cnt (cons_of g v) c) + (if c =? g_next g then cnt l v else 0)).
Proof.
  intros Ha Hl. unfold push_value. rewrite Ha.
  set (g1 := mkg _ _). exists (add_consumers g1 l (g_next g)).
  destruct (add_consumers_sb l g1 (g_next g)) as [H1 H2 H3 H4 H5].
  split; [reflexivity|]. split; [rewrite H1; reflexivity|].
  assert (U : forall n, g_val g1 n = if n =? g_next g then mkv o t (maybe_sort o l) [] blk else g_val g n) by reflexivity.
  split; [|split; [|split; [|split]]].
  - intros n. rewrite H2. unfold op_of. rewrite U. now destruct (n =? g_next g).
  - intros n. rewrite H3. unfold ty_of. rewrite U. now destruct (n =? g_next g).
  - intros n. rewrite H4. unfold args. rewrite U. now destruct (n =? g_next g).
  - intros n. rewrite H5. unfold parent. rewrite U. now destruct (n =? g_next g).
  - intros v c. rewrite add_consumers_cnt. f_equal. unfold cons_of. rewrite U. now destruct (v =? g_next g).
Qed.

(** Lemmas on one [set_val] with new arguments. *)
Lemma set_args_fields g v l :
  let g' := set_val g v (with_args (g_val g v) l) in
  g_next g' = g_next g /\
  (forall n, op_of g' n = op_of g n) /\ (forall n, ty_of g' n = ty_of g n) /\
  (forall n, args g' n = if n =? v then l else args g n) /\
  (forall n, parent g' n = parent g n) /\ (forall n, cons_of g' n = cons_of g n).
Proof.
  cbn zeta. split; [reflexivity|].
  repeat match goal with |- _ /\ _ => split end; intros n;
    unfold op_of, ty_of, args, parent, cons_of, set_val, upd; cbn [g_val];
    destruct (Nat.eqb_spec n v); subst; reflexivity.
Qed.

Lemma replace_operand_spec g c old new :
  let g' := replace_operand g c old new in
  g_next g' = g_next g /\
  (forall n, op_of g' n = op_of g n) /\ (forall n, ty_of g' n = ty_of g n) /\
  (forall n, args g' n = if n =? c then maybe_sort (op_of g c) (map (fun a => if a =? old then new else a) (args g c))
                         else args g n) /\
  (forall n, parent g' n = parent g n) /\
  (forall v x, cnt (cons_of g' v) x =
     cnt (cons_of g v) x + (if x =? c then if v =? new then cnt (args g c) old else 0 else 0)).
Proof.
  unfold replace_operand. set (k := count_occ _ _ _). set (g1 := add_consumers g _ c).
  destruct (add_consumers_sb (repeat new k) g c) as [H1 H2 H3 H4 H5]. fold g1 in H1, H2, H3, H4, H5.
  pose proof (set_args_fields g1 c (maybe_sort (op_of g1 c) (map (fun a => if a =? old then new else a) (args g1 c)))) as F.
  cbn zeta in *. destruct F as (F1 & F2 & F3 & F4 & F5 & F6).
  split; [congruence|]. split; [intros; congruence|]. split; [intros; congruence|].
  split; [intros n; rewrite F4, H4, H2, H4; reflexivity|]. split; [intros; congruence|].
  intros v x. rewrite F6. unfold g1. rewrite add_consumers_cnt, cnt_repeat.
  rewrite (Nat.eqb_sym new v). unfold k. destruct (x =? c), (v =? new); reflexivity.
Qed.

Definition subst_name (old new a : name) : name := if a =? old then new else a.
Lemma subst_name_idem old new a : old <> new -> subst_name old new (subst_name old new a) = subst_name old new a.
Proof.
  unfold subst_name. intros H.
  destruct (Nat.eqb_spec a old) as [->|N].
  - destruct (Nat.eqb_spec new old); congruence.
  - destruct (Nat.eqb_spec a old); congruence.
Qed.

(** The fold of replace_with over a list of consumers. *)
Lemma replace_fold_spec old new (Hn : old <> new) : forall cs g,
  let g' := fold_left (fun g c => replace_operand g c old new) cs g in
  g_next g' = g_next g /\
  (forall n, op_of g' n = op_of g n) /\ (forall n, ty_of g' n = ty_of g n) /\
  (forall n, Permutation (args g' n) (if mem n cs then map (subst_name old new) (args g n) else args g n)) /\
  (forall n, mem n cs = false -> args g' n = args g n) /\
  (forall n, mem n cs = true -> args g' n = maybe_sort (op_of g n) (args g' n) \/ commutative (op_of g n) = true /\ exists l, args g' n = maybe_sort (op_of g n) l) /\
  (forall n, commutative (op_of g n) = false -> args g' n = if mem n cs then map (subst_name old new) (args g n) else args g n) /\
  (forall n, parent g' n = parent g n) /\
  (forall v x, cnt (cons_of g' v) x =
     cnt (cons_of g v) x + (if mem x cs then if v =? new then cnt (args g x) old else 0 else 0)).
Proof.
  induction cs as [|c cs IH]; intros g; cbn zeta; cbn [fold_left].
  - repeat match goal with |- _ /\ _ => split end; try reflexivity; try (intros; discriminate).
    intros v x. cbn. lia.
  - specialize (IH (replace_operand g c old new)). cbn zeta in IH.
    destruct (replace_operand_spec g c old new) as (R1 & R2 & R3 & R4 & R5 & R6).
    destruct IH as (I1 & I2 & I3 & I4 & I4' & I5 & I6 & I7 & I8).
    set (g1 := replace_operand g c old new) in *.
    set (g' := fold_left _ cs g1) in *.
    split; [congruence|]. split; [intros; congruence|]. split; [intros; congruence|].
    assert (P : forall n, Permutation (args g' n) (if mem n (c :: cs) then map (subst_name old new) (args g n) else args g n)).
    { intros n. rewrite I4. rewrite R4. change (mem n (c :: cs)) with ((n =? c) || mem n cs).
      destruct (Nat.eqb_spec n c) as [->|N]; cbn [orb]; [|reflexivity].
      change (fun a : nat => if a =? old then new else a) with (subst_name old new).
      destruct (mem c cs).
      - rewrite maybe_sort_perm, map_map.
        erewrite map_ext; [reflexivity|]. intros; now apply subst_name_idem.
      - apply maybe_sort_perm. }
    split; [exact P|].
    split.
    { intros n Hm. change (mem n (c :: cs)) with ((n =? c) || mem n cs) in Hm.
      apply Bool.orb_false_elim in Hm as [Hm1 Hm2]. rewrite I4' by assumption. rewrite R4, Hm1. reflexivity. }
    split.
    { intros n Hm. change (mem n (c :: cs)) with ((n =? c) || mem n cs) in Hm.
      destruct (mem n cs) eqn:E.
      - destruct (I5 n E) as [H|[H1 [l H]]]; rewrite R2 in *.
        + left; exact H.
        + right. split; [assumption|]. exists l. assumption.
      - rewrite Bool.orb_false_r in Hm. apply Nat.eqb_eq in Hm. subst n.
        rewrite I4' by assumption. rewrite R4, Nat.eqb_refl.
        destruct (commutative (op_of g c)) eqn:K.
        + right. split; [reflexivity|]. eexists. reflexivity.
        + left. unfold maybe_sort. rewrite K. reflexivity. }
    split.
    { intros n K. rewrite I6 by (rewrite R2; assumption). rewrite R4. change (mem n (c :: cs)) with ((n =? c) || mem n cs).
      destruct (Nat.eqb_spec n c) as [->|N]; cbn [orb]; [|reflexivity].
      unfold maybe_sort. rewrite K. change (fun a : nat => if a =? old then new else a) with (subst_name old new).
      destruct (mem c cs); [|reflexivity].
      rewrite map_map. apply map_ext. intros; now apply subst_name_idem. }
    split; [intros; congruence|].
    intros v x. rewrite I8, R6. change (mem x (c :: cs)) with ((x =? c) || mem x cs).
    assert (Hx : x = c -> cnt (args g1 x) old = 0).
    { intros ->. rewrite R4, Nat.eqb_refl. rewrite (cnt_perm _ _ _ (maybe_sort_perm _ _)).
      rewrite cnt_map_replace by assumption. now rewrite Nat.eqb_refl. }
    destruct (Nat.eqb_spec x c) as [E|N]; cbn [orb].
    + rewrite (Hx E). subst x. destruct (mem c cs), (v =? new); lia.
    + assert (args g1 x = args g x) as ->.
      { rewrite R4. destruct (Nat.eqb_spec x c); [contradiction|reflexivity]. }
      destruct (mem x cs), (v =? new); lia.
Qed.

Lemma replace_with_spec g v o :
  def_use g -> v <> o ->
  exists g', replace_with g v o = Ok g' /\
    g_next g' = g_next g /\
    (forall n, op_of g' n = op_of g n) /\ (forall n, ty_of g' n = ty_of g n) /\
    (forall n, parent g' n = parent g n) /\
    (forall n, Permutation (args g' n) (map (subst_name v o) (args g n))) /\
    (forall n, commutative (op_of g n) = false -> args g' n = map (subst_name v o) (args g n)) /\
    (forall n, ~ In v (args g n) -> args g' n = args g n) /\
    (forall n, commutative (op_of g n) = true -> sorted_names (args g n) -> sorted_names (args g' n)) /\
    def_use g' /\ cons_of g' v = [].
Proof.
  intros DU Hn. unfold replace_with. destruct (Nat.eqb_spec v o) as [|_]; [contradiction|].
  destruct (replace_fold_spec v o Hn (cons_of g v) g) as (I1 & I2 & I3 & I4 & I4' & I5 & I6 & I7 & I8).
  set (g1 := fold_left _ _ g) in *.
  destruct (sb_set_cons g1 v []) as [S1 S2 S3 S4 S5].
  set (g' := set_val g1 v _) in *. exists g'.
  assert (M : forall n, mem n (cons_of g v) = true <-> In v (args g n)).
  { intros n. rewrite mem_in, cnt_in, cnt_in. now rewrite DU. }
  assert (Hid : forall n, ~ In v (args g n) -> map (subst_name v o) (args g n) = args g n).
  { intros n Hv. erewrite map_ext_in; [apply map_id|]. intros a Ha. unfold subst_name.
    destruct (Nat.eqb_spec a v); congruence. }
  split; [reflexivity|]. split; [congruence|]. split; [intros; congruence|]. split; [intros; congruence|].
  split; [intros; congruence|].
  assert (P : forall n, Permutation (args g' n) (map (subst_name v o) (args g n))).
  { intros n. rewrite S4, I4. destruct (mem n (cons_of g v)) eqn:E; [reflexivity|].
    rewrite Hid; [reflexivity|]. intros H. apply M in H. congruence. }
  split; [exact P|].
  split.
  { intros n K. rewrite S4, I6 by assumption. destruct (mem n (cons_of g v)) eqn:E; [reflexivity|].
    rewrite Hid; [reflexivity|]. intros H. apply M in H. congruence. }
  split.
  { intros n Hv. rewrite S4. apply I4'. destruct (mem n (cons_of g v)) eqn:E; [|reflexivity]. apply M in E. contradiction. }
  split.
  { intros n K Hs. rewrite S4. destruct (mem n (cons_of g v)) eqn:E.
    - destruct (I5 n E) as [->|[_ [l ->]]]; now apply sorted_maybe.
    - now rewrite I4'. }
  split.
  - intros w x. rewrite S4 in *. 
    unfold g'. rewrite cons_set_cons.
    rewrite (cnt_perm (args g1 x) (map (subst_name v o) (args g x))) by (rewrite <- S4; apply P).
    change (subst_name v o) with (fun a => if a =? v then o else a). rewrite cnt_map_replace by assumption.
    destruct (Nat.eqb_spec w v) as [->|Nw]; [reflexivity|].
    rewrite I8, DU. destruct (mem x (cons_of g v)) eqn:E.
    + destruct (Nat.eqb_spec w o) as [->|]; lia.
    + assert (cnt (args g x) v = 0) as Z.
      { apply cnt_not_in. intros H. apply M in H. congruence. }
      rewrite Z. destruct (Nat.eqb_spec w o) as [->|]; lia.
  - unfold g'. rewrite cons_set_cons, Nat.eqb_refl. reflexivity.
Qed.

Lemma remove_value_spec g v :
  def_use g -> cons_of g v = [] ->
  exists g', remove_value g v = Ok g' /\
    g_next g' = g_next g /\
    (forall n, op_of g' n = op_of g n) /\ (forall n, ty_of g' n = ty_of g n) /\
    (forall n, parent g' n = parent g n) /\
    (forall n, args g' n = if n =? v then [] else args g n) /\
    def_use g' /\
    (forall w x, x <> v -> cnt (cons_of g' w) x = cnt (cons_of g w) x) /\
    (forall n, cons_of g n = [] -> cons_of g' n = []).
Proof.
  intros DU E. unfold remove_value. rewrite E.
  pose proof (remove_consumers_cnt (args g v) g v) as Hc.
  destruct (remove_consumers_sb (args g v) g v) as [H1 H2 H3 H4 H5].
  set (g1 := remove_consumers g _ v) in *.
  destruct (set_args_fields g1 v []) as (F1 & F2 & F3 & F4 & F5 & F6).
  set (g' := set_val g1 v _) in *. exists g'.
  split; [reflexivity|]. split; [congruence|]. split; [intros; congruence|]. split; [intros; congruence|].
  split; [intros; congruence|].
  assert (Ha : forall n, args g' n = if n =? v then [] else args g n).
  { intros n. rewrite F4, H4. reflexivity. }
  split; [exact Ha|]. split; [|split].
  - intros w x. rewrite F6, Hc, Ha, DU.
    destruct (Nat.eqb_spec x v) as [->|]; [cbn; lia|lia].
  - intros w x Hx. rewrite F6, Hc. destruct (Nat.eqb_spec x v); [contradiction|lia].
  - intros n Hn. rewrite F6. destruct (cons_of g1 n) as [|x l] eqn:El; [reflexivity|].
    pose proof (Hc n x) as Q. rewrite El, Hn in Q. rewrite cnt_cons in Q. cbn in Q. destruct (Nat.eq_dec x x); lia || congruence.
Qed.

Lemma set_operation_spec g v o t l :
  def_use g -> arity_ok o (length l) = true -> ~ In v l ->
  exists g', set_operation g v o t l = Ok g' /\
    g_next g' = g_next g /\
    (forall n, op_of g' n = if n =? v then o else op_of g n) /\
    (forall n, ty_of g' n = if n =? v then t else ty_of g n) /\
    (forall n, parent g' n = parent g n) /\
    (forall n, args g' n = if n =? v then maybe_sort o l else args g n) /\
    def_use g'.
Proof.
  intros DU Ha Hv. unfold set_operation. rewrite Ha.
  pose proof (remove_consumers_cnt (args g v) g v) as Hc.
  destruct (remove_consumers_sb (args g v) g v) as [H1 H2 H3 H4 H5].
  set (g1 := remove_consumers g _ v) in *.
  pose proof (add_consumers_cnt l g1 v) as Hd.
  destruct (add_consumers_sb l g1 v) as [J1 J2 J3 J4 J5].
  set (g2 := add_consumers g1 l v) in *.
  set (g' := set_val g2 v _). exists g'.
  assert (U : forall n, g_val g' n = if n =? v then mkv o t (maybe_sort o l) (cons_of g2 v) (parent g2 v) else g_val g2 n)
    by reflexivity.
  split; [reflexivity|]. split; [cbn; congruence|].
  assert (Hargs : forall n, args g' n = if n =? v then maybe_sort o l else args g n).
  { intros n. unfold args at 1. rewrite U. destruct (n =? v); [reflexivity|]. change (v_args (g_val g2 n)) with (args g2 n). congruence. }
  split; [|split; [|split; [|split]]].
  - intros n. unfold op_of at 1. rewrite U. destruct (n =? v); [reflexivity|]. change (v_op (g_val g2 n)) with (op_of g2 n). congruence.
  - intros n. unfold ty_of at 1. rewrite U. destruct (n =? v); [reflexivity|]. change (v_ty (g_val g2 n)) with (ty_of g2 n). congruence.
  - intros n. unfold parent at 1. rewrite U. destruct (Nat.eqb_spec n v) as [->|]; [cbn; congruence|].
    change (v_parent (g_val g2 n)) with (parent g2 n). congruence.
  - exact Hargs.
  - intros w x. rewrite Hargs.
    assert (cons_of g' w = cons_of g2 w) as ->.
    { unfold cons_of at 1. rewrite U. destruct (Nat.eqb_spec w v) as [->|]; reflexivity. }
    rewrite Hd, Hc, DU. destruct (Nat.eqb_spec x v) as [->|]; [|lia].
    rewrite (cnt_perm _ _ _ (maybe_sort_perm o l)). lia.
Qed.

Lemma replace_operand_pair_spec g v a b new :
  def_use g ->
  let l := args g v in
  let k := if a =? b then cnt l a / 2 else Nat.min (cnt l a) (cnt l b) in
  exists g', replace_operand_pair g v a b new = (g', k) /\
    g_next g' = g_next g /\
    (forall n, op_of g' n = op_of g n) /\ (forall n, ty_of g' n = ty_of g n) /\
    (forall n, parent g' n = parent g n) /\
    (forall n, n <> v -> args g' n = args g n) /\
    (exists l', args g' v = maybe_sort (op_of g v) (l' ++ repeat new k) /\
                Permutation l (repeat a k ++ repeat b k ++ l')) /\
    def_use g'.
Proof.
  intros DU. cbn zeta. unfold replace_operand_pair.
  set (l := args g v). set (k := if a =? b then _ else _).
  pose proof (remove_consumers_cnt (repeat a k) g v) as Hc.
  destruct (remove_consumers_sb (repeat a k) g v) as [H1 H2 H3 H4 H5].
  set (g1 := remove_consumers g _ v) in *.
  pose proof (remove_consumers_cnt (repeat b k) g1 v) as Hc'.
  destruct (remove_consumers_sb (repeat b k) g1 v) as [H1' H2' H3' H4' H5'].
  set (g2 := remove_consumers g1 _ v) in *.
  pose proof (add_consumers_cnt (repeat new k) g2 v) as Hd.
  destruct (add_consumers_sb (repeat new k) g2 v) as [J1 J2 J3 J4 J5].
  set (g3 := add_consumers g2 _ v) in *.
  set (l' := remove_up_to k b (remove_up_to k a l)).
  destruct (set_args_fields g3 v (maybe_sort (op_of g3 v) (l' ++ repeat new k))) as (F1 & F2 & F3 & F4 & F5 & F6).
  set (g' := set_val g3 v _) in *. exists g'.
  assert (Hk : forall x, cnt l x >= (if a =? x then k else 0) + (if b =? x then k else 0)).
  { intros x. unfold k. destruct (Nat.eqb_spec a b) as [->|N].
    - destruct (Nat.eqb_spec b x) as [->|]; [|lia].
      pose proof (Nat.div_mod_eq (cnt l x) 2). lia.
    - destruct (Nat.eqb_spec a x) as [->|], (Nat.eqb_spec b x) as [->|]; lia || congruence. }
  assert (Hl' : forall x, cnt l' x = cnt l x - (if a =? x then k else 0) - (if b =? x then k else 0)).
  { intros x. unfold l'. now rewrite !cnt_remove_up_to. }
  split; [reflexivity|]. split; [congruence|]. split; [intros; congruence|]. split; [intros; congruence|].
  split; [intros; congruence|].
  split.
  { intros n Hn. rewrite F4. destruct (Nat.eqb_spec n v); [contradiction|congruence]. }
  split.
  - exists l'. split.
    + rewrite F4, Nat.eqb_refl. f_equal. congruence.
    + apply (Permutation_count_occ Nat.eq_dec). intros x. rewrite !count_occ_app, !cnt_repeat, Hl'.
      specialize (Hk x). lia.
  - intros w x. rewrite F6, F4, Hd, Hc', Hc, DU, !cnt_repeat.
    destruct (Nat.eqb_spec x v) as [->|].
    + rewrite (cnt_perm _ _ _ (maybe_sort_perm _ _)), count_occ_app, cnt_repeat, Hl'.
      fold l. lia.
    + assert (args g3 x = args g x) as -> by congruence. lia.
Qed.

(** * Order *)
Lemma before_in l a v : before l a v -> In a l /\ In v l.
Proof. intros (l1 & l2 & -> & H). rewrite !in_app_iff. cbn. tauto. Qed.

Lemma before_app l1 l2 a v : In a l1 -> In v l2 -> before (l1 ++ l2) a v.
Proof.
  intros Ha Hv. apply in_split in Hv as (m1 & m2 & ->). exists (l1 ++ m1), m2.
  rewrite <- app_assoc. split; [reflexivity|]. apply in_or_app. now left.
Qed.
Lemma before_left l1 l2 a v : before l1 a v -> before (l1 ++ l2) a v.
Proof. intros (m1 & m2 & -> & H). exists m1, (m2 ++ l2). rewrite <- app_assoc. split; [reflexivity|assumption]. Qed.
Lemma before_right l1 l2 a v : before l2 a v -> before (l1 ++ l2) a v.
Proof.
  intros (m1 & m2 & -> & H). exists (l1 ++ m1), m2. rewrite <- app_assoc. split; [reflexivity|].
  apply in_or_app. now right.
Qed.

Lemma before_split l1 l2 a v :
  NoDup (l1 ++ l2) ->
  before (l1 ++ l2) a v <-> before l1 a v \/ (In a l1 /\ In v l2) \/ before l2 a v.
Proof.
  intros ND. split.
  - intros (m1 & m2 & E & H).
    apply app_eq_app in E as (k & [[-> E2]|[-> E2]]).
    + destruct k as [|x k].
      * cbn in E2. subst l2. rewrite app_nil_r in *. right. left. split; [assumption|now left].
      * injection E2 as <- ->. left. exists m1, k. split; [reflexivity|assumption].
    + subst l2. apply in_app_or in H as [H|H].
      * right. left. split; [assumption|]. apply in_or_app. right. now left.
      * right. right. exists k, m2. split; [reflexivity|assumption].
  - intros [H|[[H1 H2]|H]]; [now apply before_left|now apply before_app|now apply before_right].
Qed.

Lemma before_insert l1 m l2 a v : NoDup (l1 ++ l2) -> before (l1 ++ l2) a v -> before (l1 ++ m ++ l2) a v.
Proof.
  intros ND H. apply before_split in H; [|assumption]. destruct H as [H|[[H1 H2]|H]].
  - now apply before_left.
  - apply before_app; [assumption|]. apply in_or_app. now right.
  - apply before_right. now apply before_right.
Qed.

Lemma nodup_mid (l1 : list name) x l2 : NoDup (l1 ++ x :: l2) <-> NoDup (l1 ++ l2) /\ ~ In x (l1 ++ l2).
Proof.
  split.
  - intros H. split; [now apply NoDup_remove_1 in H|now apply NoDup_remove_2 in H].
  - intros [H1 H2]. apply (Permutation_NoDup (l := x :: l1 ++ l2)); [apply Permutation_middle|].
    now constructor.
Qed.

Lemma nodup_app_r (l1 l2 : list name) : NoDup (l1 ++ l2) -> NoDup l2.
Proof. induction l1 as [|x t IH]; intros H; [exact H|]. inversion H; subst. auto. Qed.

Lemma before_remove l1 x l2 a v :
  NoDup (l1 ++ x :: l2) -> a <> x -> v <> x -> before (l1 ++ x :: l2) a v -> before (l1 ++ l2) a v.
Proof.
  intros ND Ha Hv H. change (x :: l2) with ([x] ++ l2) in *. apply before_split in H; [|assumption].
  destruct H as [H|[[H1 H2]|H]].
  - now apply before_left.
  - apply before_app; [assumption|]. destruct H2 as [|]; [congruence|assumption].
  - apply before_split in H.
    + destruct H as [H|[[H _]|H]].
      * apply before_in in H as [[|[]] _]. congruence.
      * destruct H as [|[]]; congruence.
      * now apply before_right.
    + now apply nodup_app_r in ND.
Qed.

Lemma before_irrefl l a : NoDup l -> ~ before l a a.
Proof. intros ND (l1 & l2 & -> & H). apply nodup_mid in ND as [_ N]. apply N, in_or_app. now left. Qed.

Lemma before_trans l a b c : NoDup l -> before l a b -> before l b c -> before l a c.
Proof.
  intros ND (l1 & l2 & -> & H1) H2. change (b :: l2) with ([b] ++ l2) in *.
  apply before_split in H2; [|assumption]. destruct H2 as [H2|[[H2 _]|H2]].
  - exfalso. apply nodup_mid in ND as [_ N]. apply N, in_or_app. left. now apply before_in in H2.
  - exfalso. apply nodup_mid in ND as [_ N]. apply N, in_or_app. now left.
  - apply before_app; [assumption|]. apply before_in in H2. tauto.
Qed.

Lemma before_total l a b : In a l -> In b l -> a <> b -> before l a b \/ before l b a.
Proof.
  intros Ha Hb N. apply in_split in Ha as (l1 & l2 & ->). apply in_app_or in Hb as [Hb|[Hb|Hb]].
  - right. exists l1, l2. split; [reflexivity|assumption].
  - congruence.
  - left. change (a :: l2) with ([a] ++ l2). rewrite app_assoc. apply before_app; [|assumption].
    apply in_or_app. right. now left.
Qed.

(** * Valuations *)
Section Valuations.
  Variable A : algebra.
  Definition consistent (r : name -> D A) (g : graph) (l : list name) : Prop :=
    forall v, In v l -> r v = sem A (op_of g v) (map r (args g v)).

  Lemma sum_perm l l' : Permutation l l' -> fold_right (dadd A) (d0 A) l = fold_right (dadd A) (d0 A) l'.
  Proof.
    pose proof (d_ring A) as R. induction 1; cbn; try congruence.
    rewrite !(Radd_assoc R), (Radd_comm R y x). reflexivity.
  Qed.
  Lemma prod_perm l l' : Permutation l l' -> fold_right (dmul A) (d1 A) l = fold_right (dmul A) (d1 A) l'.
  Proof.
    pose proof (d_ring A) as R. induction 1; cbn; try congruence.
    rewrite !(Rmul_assoc R), (Rmul_comm R y x). reflexivity.
  Qed.
  Lemma sem_comm_perm o l l' : commutative o = true -> Permutation l l' -> sem A o l = sem A o l'.
  Proof.
    destruct o; intros H P; try discriminate.
    - rewrite !sem_add. now apply sum_perm.
    - rewrite !sem_mul. now apply prod_perm.
  Qed.
  Lemma sem_maybe_sort r o l : sem A o (map r (maybe_sort o l)) = sem A o (map r l).
  Proof.
    unfold maybe_sort. destruct (commutative o) eqn:E; [|reflexivity].
    apply sem_comm_perm; [assumption|]. apply Permutation_map, sort_perm.
  Qed.

  Lemma consistent_perm r g l l' : Permutation l l' -> consistent r g l -> consistent r g l'.
  Proof. intros P H v Hv. apply H. apply (Permutation_in v (Permutation_sym P) Hv). Qed.
End Valuations.
Arguments consistent {A} r g l.

(** One program simulates another: valuations extend to the new values and the saves are the same values. *)
(** Operations the passes make. *)
Definition pass_op (o : op) : bool :=
  match o with OAdd | OMul | ONeg | OCopy | OCast _ | OLoad (LInt _) => true | _ => false end.
Record sim (g : graph) (l : list name) (g' : graph) (l' : list name) : Prop := {
  sim_next : g_next g <= g_next g';
  sim_val : forall (A : algebra) (r : name -> D A), consistent r g l ->
      exists r', (forall n, n < g_next g -> r' n = r n) /\ consistent r' g' l';
  sim_save : forall v u k, (In v l /\ op_of g v = OSave u k) <-> (In v l' /\ op_of g' v = OSave u k);
  sim_ops : forall v, v < g_next g' -> (v < g_next g /\ op_of g' v = op_of g v) \/ pass_op (op_of g' v) = true;
  sim_in : forall v, In v l' -> In v l \/ g_next g <= v;
  sim_operand : (forall v a, In v l -> In a (args g v) -> ty_of g a <> TVoid) ->
      forall v a, In v l' -> In a (args g' v) -> ty_of g' a <> TVoid
}.
Lemma sim_refl g l : sim g l g l.
Proof. split; [lia| |tauto|auto|auto|auto]. intros A r H. exists r. split; [reflexivity|assumption]. Qed.
Lemma sim_trans g1 l1 g2 l2 g3 l3 : sim g1 l1 g2 l2 -> sim g2 l2 g3 l3 -> sim g1 l1 g3 l3.
Proof.
  intros [N1 V1 S1 O1 I1 A1] [N2 V2 S2 O2 I2 A2]. split; [lia| | | | |intros H; apply A2, A1, H].
  - intros A r H. destruct (V1 A r H) as (r2 & E2 & C2). destruct (V2 A r2 C2) as (r3 & E3 & C3).
    exists r3. split; [|assumption]. intros n Hn. rewrite E3 by lia. now apply E2.
  - intros v u k. now rewrite S1, S2.
  - intros v L. destruct (O2 v L) as [(L2 & ->)|]; auto.
  - intros v H. destruct (I2 v H) as [K|K]; [auto|right; lia].
Qed.
Lemma sim_perm_l g l1 l2 g' l' : Permutation l1 l2 -> sim g l1 g' l' -> sim g l2 g' l'.
Proof.
  intros P [N V S O I X]. split; [assumption| | |assumption| |].
  - intros A r H. apply V. now apply (consistent_perm A r g l2 l1); [apply Permutation_sym|].
  - intros v u k. rewrite <- S. split; intros [H1 H2]; (split; [|assumption]).
    + apply (Permutation_in v (Permutation_sym P) H1).
    + apply (Permutation_in v P H1).
  - intros v H. destruct (I v H) as [K|]; [left; apply (Permutation_in v P K)|auto].
  - intros H. apply X. intros v a Hv. apply H. apply (Permutation_in v P Hv).
Qed.
Lemma sim_perm_r g l g' l1 l2 : Permutation l1 l2 -> sim g l g' l1 -> sim g l g' l2.
Proof.
  intros P [N V S O I X]. split; [assumption| | |assumption| |].
  - intros A r H. destruct (V A r H) as (r' & E & C). exists r'. split; [assumption|].
    now apply (consistent_perm A r' g' l1 l2).
  - intros v u k. rewrite S. split; intros [H1 H2]; (split; [|assumption]).
    + apply (Permutation_in v P H1).
    + apply (Permutation_in v (Permutation_sym P) H1).
  - intros v H. apply I. apply (Permutation_in v (Permutation_sym P) H).
  - intros H v a Hv. apply (X H). apply (Permutation_in v (Permutation_sym P) Hv).
Qed.

Section Steps.
Context {T : typing}.
Lemma block_ok_perm g b l l' : Permutation l l' -> block_ok T g b l -> block_ok T g b l'.
Proof.
  intros P []. assert (Q : forall v, In v l' <-> In v l).
  { intros v. split; intros H; [apply (Permutation_in v (Permutation_sym P) H)|apply (Permutation_in v P H)]. }
  split; try (intros v; rewrite Q; auto).
  - apply (Permutation_NoDup P). assumption.
  - assumption.
Qed.

(** * Steps on programs *)
Lemma args_in g l v a : ordered g l -> In v l -> In a (args g v) -> In a l.
Proof. intros O Hv Ha. apply (before_in _ _ _ (O v a Hv Ha)). Qed.

(** Values that can be given to a new operation. *)
Record op_ok (g : graph) (o : op) (t : vtype) (l : list name) : Prop := {
  ok_arity : arity_ok o (length l) = true;
  ok_many : commutative o = true -> 2 <= length l;
  ok_scalar : commutative o = true -> exists u, t = TScalar u /\ u <> NBool /\ forall a, In a l -> ty_of g a = TScalar u;
  ok_typed : t = ft T o (map (ty_of g) l);
  ok_plain : o <> OPhi /\ o <> OJump /\ o <> OCast NBool
}.
Record op_fits (g : graph) (o : op) (t : vtype) (l : list name) : Prop := {
  of_ok : op_ok g o t l;
  of_made : pass_op o = true;
  of_value : forall a, In a l -> ty_of g a <> TVoid
}.
Lemma pass_op_save o u k : pass_op o = true -> o <> OSave u k.
Proof. now intros H ->. Qed.

(** All operands of a sum or product having one type, their order does not matter. *)
Lemma typed_perm (ty ty' : name -> vtype) o u l l' :
  commutative o = true -> Permutation l' l ->
  (forall a, In a l -> ty a = TScalar u) -> (forall a, In a l' -> ty' a = TScalar u) -> l <> [] ->
  ft T o (map ty l) = ft T o (map ty' l').
Proof.
  intros C P H H' N. destruct l as [|a l]; [congruence|]. destruct l' as [|a' l'].
  { apply Permutation_nil in P. discriminate. }
  cbn [map]. rewrite (H a), (H' a') by now left. now rewrite !ft_comm.
Qed.
Lemma many_nonempty (l : list name) : 2 <= length l -> l <> [].
Proof. destruct l; cbn; [lia|discriminate]. Qed.

Lemma push_any_step g b l1 l2 o t l :
  program T g b (l1 ++ l2) -> incl l l1 -> op_ok g o t l ->
  exists g', push_value g b o t l = Ok (g', g_next g) /\
    program T g' b (l1 ++ g_next g :: l2) /\
    (pass_op o = true -> (forall a, In a l -> ty_of g a <> TVoid) -> sim g (l1 ++ l2) g' (l1 ++ g_next g :: l2)) /\
    g_next g' = S (g_next g) /\
    op_of g' (g_next g) = o /\ ty_of g' (g_next g) = t /\ args g' (g_next g) = maybe_sort o l /\
    (forall n, n <> g_next g -> op_of g' n = op_of g n /\ ty_of g' n = ty_of g n /\ args g' n = args g n).
Proof.
  intros [B O] Hl [F1 F2 F3 F6 F4]. remember (g_next g) as n eqn:En0.
  assert (Hfresh : forall v, In v (l1 ++ l2) -> v <> n).
  { intros v Hv ->. pose proof (bo_fresh _ _ _ B _ Hv). lia. }
  assert (Nn : ~ In n (l1 ++ l2)) by (intros H; now apply (Hfresh n)).
  assert (Nl : ~ In n l). { intros H. apply Nn, in_or_app. left. now apply Hl. }
  rewrite En0 in Nl. destruct (push_spec g b o t l F1 Nl) as (g' & E & P1 & P2 & P3 & P4 & P5 & P6). rewrite <- En0 in *.
  exists g'. split; [assumption|].
  assert (In_mid : forall v, In v (l1 ++ n :: l2) <-> v = n \/ In v (l1 ++ l2)).
  { intros v. rewrite !in_app_iff. cbn. intuition congruence. }
  assert (Old : forall v, v <> n -> op_of g' v = op_of g v /\ ty_of g' v = ty_of g v /\ args g' v = args g v).
  { intros v Hv. rewrite P2, P3, P4. destruct (Nat.eqb_spec v n); [contradiction|repeat split]. }
  assert (New : op_of g' n = o /\ ty_of g' n = t /\ args g' n = maybe_sort o l).
  { rewrite P2, P3, P4, Nat.eqb_refl. repeat split. }
  assert (Len : length (maybe_sort o l) = length l) by apply Permutation_length, maybe_sort_perm.
  assert (Use0 : forall v, cnt (args g v) n = 0).
  { intros v. destruct (in_dec Nat.eq_dec v (l1 ++ l2)) as [Hv|Hv].
    - apply cnt_not_in. intros H. apply Nn. eapply args_in; eassumption.
    - rewrite (bo_dead _ _ _ B) by assumption. reflexivity. }
  assert (TyO : forall a, In a (l1 ++ l2) -> ty_of g' a = ty_of g a) by (intros a Ha; apply (Old a (Hfresh a Ha))).
  assert (TyL : forall a, In a l -> ty_of g' a = ty_of g a).
  { intros a Ha. apply TyO, in_or_app. left. now apply Hl. }
  split; [split|split; [intros F5 F7; split|]].
  - split.
    + apply nodup_mid. split; [apply B|assumption].
    + intros v Hv. rewrite P1. apply In_mid in Hv as [->|Hv]; [lia|].
      pose proof (bo_fresh _ _ _ B _ Hv). lia.
    + intros v Hv. rewrite P5. apply In_mid in Hv as [->|Hv]; [now rewrite Nat.eqb_refl|].
      destruct (v =? n); [reflexivity|]. now apply (bo_parent _ _ _ B).
    + intros v c. rewrite P6, P4. pose proof (bo_def_use _ _ _ B v c) as DU.
      destruct (Nat.eqb_spec v n) as [->|Nv], (Nat.eqb_spec c n) as [->|Nc].
      * rewrite (cnt_perm _ _ _ (maybe_sort_perm o l)). lia.
      * rewrite Use0. lia.
      * rewrite (cnt_perm _ _ _ (maybe_sort_perm o l)).
        rewrite DU. rewrite (bo_dead _ _ _ B n Nn). cbn. lia.
      * lia.
    + intros v Hv. rewrite P4. destruct (Nat.eqb_spec v n) as [->|].
      * exfalso. apply Hv, In_mid. now left.
      * apply (bo_dead _ _ _ B). intros H. apply Hv, In_mid. now right.
    + intros v Hv. apply In_mid in Hv as [->|Hv].
      * destruct New as (-> & _ & ->). apply sorted_maybe.
      * destruct (Old v (Hfresh v Hv)) as (-> & _ & ->). now apply (bo_sorted _ _ _ B).
    + intros v Hv. apply In_mid in Hv as [->|Hv].
      * destruct New as (-> & _ & ->). rewrite Len. assumption.
      * destruct (Old v (Hfresh v Hv)) as (-> & _ & ->). now apply (bo_many _ _ _ B).
    + intros v Hv. apply In_mid in Hv as [->|Hv].
      * destruct New as (-> & -> & ->). intros C. destruct (F3 C) as (u & E1 & E2 & E3). exists u.
        split; [assumption|]. split; [assumption|]. intros a Ha. apply (Permutation_in a (maybe_sort_perm o l)) in Ha.
        rewrite TyL by assumption. now apply E3.
      * destruct (Old v (Hfresh v Hv)) as (-> & -> & ->). intros C.
        destruct (bo_scalar _ _ _ B v Hv C) as (u & E1 & E2 & E3). exists u.
        split; [assumption|]. split; [assumption|]. intros a Ha. rewrite TyO by (eapply args_in; eassumption). now apply E3.
    + intros v Hv. apply In_mid in Hv as [->|Hv].
      * destruct New as (-> & -> & ->). rewrite F6. unfold maybe_sort. destruct (commutative o) eqn:C.
        -- destruct (F3 eq_refl) as (u & E1 & E2 & E3). apply typed_perm with u; auto.
           ++ apply sort_perm.
           ++ intros a Ha. apply (Permutation_in a (sort_perm l)) in Ha. rewrite TyL by assumption. now apply E3.
           ++ now apply many_nonempty, F2.
        -- f_equal. apply map_ext_in. intros a Ha. symmetry. now apply TyL.
      * destruct (Old v (Hfresh v Hv)) as (-> & -> & ->). rewrite (bo_typed _ _ _ B v Hv). f_equal.
        apply map_ext_in. intros a Ha. symmetry. apply TyO. eapply args_in; eassumption.
    + intros v Hv. apply In_mid in Hv as [->|Hv].
      * destruct New as (-> & _ & ->). now rewrite Len.
      * destruct (Old v (Hfresh v Hv)) as (-> & _ & ->). now apply (bo_arity _ _ _ B).
    + intros v Hv. apply In_mid in Hv as [->|Hv].
      * destruct New as (-> & _ & _). assumption.
      * destruct (Old v (Hfresh v Hv)) as (-> & _ & _). now apply (bo_plain _ _ _ B).
  - intros v a Hv Ha. apply In_mid in Hv as [->|Hv].
    + destruct New as (_ & _ & En). rewrite En in Ha.
      exists l1, l2. split; [reflexivity|]. apply Hl.
      apply (Permutation_in a (maybe_sort_perm o l) Ha).
    + destruct (Old v (Hfresh v Hv)) as (_ & _ & Ev). rewrite Ev in Ha.
      apply (before_insert l1 [n] l2); [apply B|]. now apply O.
  - rewrite P1. lia.
  - intros A r C. exists (fun m => if m =? n then sem A o (map r l) else r m). split.
    + intros m Hm. destruct (Nat.eqb_spec m n); [lia|reflexivity].
    + assert (Hmap : forall k, ~ In n k -> map (fun m => if m =? n then sem A o (map r l) else r m) k = map r k).
      { intros k Hk. apply map_ext_in. intros a Ha. destruct (Nat.eqb_spec a n); congruence. }
      intros v Hv. apply In_mid in Hv as [->|Hv].
      * rewrite Nat.eqb_refl. destruct New as (-> & _ & ->). rewrite sem_maybe_sort. now rewrite Hmap.
      * destruct (Old v (Hfresh v Hv)) as (-> & _ & ->).
        destruct (Nat.eqb_spec v n); [now apply Hfresh in Hv|].
        rewrite Hmap; [now apply C|]. intros H. pose proof (Use0 v) as Z. apply cnt_not_in in Z. contradiction.
  - intros v u k. rewrite In_mid. split.
    + intros [Hv Ho]. split; [now right|]. destruct (Old v (Hfresh v Hv)) as (-> & _). assumption.
    + intros [[->|Hv] Ho].
      * destruct New as (En & _). rewrite En in Ho. now apply (pass_op_save o u k F5) in Ho.
      * destruct (Old v (Hfresh v Hv)) as (Eo & _). rewrite Eo in Ho. tauto.
  - intros v L. destruct (Nat.eq_dec v n) as [->|Nv]; [right; destruct New as (-> & _); assumption|].
    left. split; [lia|]. apply (Old v Nv).
  - intros v Hv. apply In_mid in Hv as [->|Hv]; [right; lia|now left].
  - intros H v a Hv Ha. apply In_mid in Hv as [->|Hv].
    + destruct New as (_ & _ & En). rewrite En in Ha. apply (Permutation_in a (maybe_sort_perm o l)) in Ha.
      rewrite TyL by assumption. now apply F7.
    + destruct (Old v (Hfresh v Hv)) as (_ & _ & Ev). rewrite Ev in Ha. rewrite TyO by (eapply args_in; eassumption). now apply (H v).
  - split; [assumption|]. destruct New as (-> & -> & ->). repeat split; now apply Old.
Qed.

Lemma push_step g b l1 l2 o t l :
  program T g b (l1 ++ l2) -> incl l l1 -> op_fits g o t l ->
  exists g', push_value g b o t l = Ok (g', g_next g) /\
    program T g' b (l1 ++ g_next g :: l2) /\ sim g (l1 ++ l2) g' (l1 ++ g_next g :: l2) /\
    g_next g' = S (g_next g) /\
    op_of g' (g_next g) = o /\ ty_of g' (g_next g) = t /\ args g' (g_next g) = maybe_sort o l /\
    (forall n, n <> g_next g -> op_of g' n = op_of g n /\ ty_of g' n = ty_of g n /\ args g' n = args g n).
Proof.
  intros P Hl [F1 F2 F3]. destruct (push_any_step g b l1 l2 o t l P Hl F1) as (g' & E & P' & S & R).
  exists g'. split; [assumption|]. split; [assumption|]. split; [now apply S|assumption].
Qed.

Lemma subst_map A (r : name -> D A) v o k : r v = r o -> map r (map (subst_name v o) k) = map r k.
Proof.
  intros H. rewrite map_map. apply map_ext. intros a. unfold subst_name. destruct (Nat.eqb_spec a v); congruence.
Qed.

Lemma replace_step g b l v o :
  program T g b l -> In v l -> In o l -> v <> o -> ty_of g v = ty_of g o ->
  (forall c, In c l -> In v (args g c) -> before l o c) ->
  (forall A (r : name -> D A), consistent r g l -> r v = r o) ->
  exists g', replace_with g v o = Ok g' /\
    program T g' b l /\ sim g l g' l /\ g_next g' = g_next g /\
    (forall n, op_of g' n = op_of g n /\ ty_of g' n = ty_of g n) /\
    (forall n, ~ In v (args g n) -> args g' n = args g n) /\
    (forall n, Permutation (args g' n) (map (subst_name v o) (args g n))) /\
    cons_of g' v = [] /\
    (forall A (r : name -> D A), consistent r g l -> consistent r g' l).
Proof.
  intros [B O] Hv Ho N Ht Hb Hr.
  destruct (replace_with_spec g v o (bo_def_use _ _ _ B) N) as (g' & E & P1 & P2 & P3 & P4 & P5 & P6 & P7 & P8 & P9 & P10).
  exists g'. split; [assumption|].
  assert (Len : forall n, length (args g' n) = length (args g n)).
  { intros n. rewrite (Permutation_length (P5 n)). apply map_length. }
  assert (Homog : forall n u, (forall a, In a (args g n) -> ty_of g a = TScalar u) ->
                    forall a, In a (args g' n) -> ty_of g' a = TScalar u).
  { intros n u Hu a Ha. rewrite P3. apply (Permutation_in a (P5 n)) in Ha. apply in_map_iff in Ha as (x & <- & Hx).
    unfold subst_name. destruct (Nat.eqb_spec x v) as [->|]; [rewrite <- Ht|]; now apply Hu. }
  assert (Cons : forall A (r : name -> D A), consistent r g l -> consistent r g' l).
  { intros A r C n Hn. rewrite P2. rewrite (C n Hn). specialize (Hr A r C).
    destruct (commutative (op_of g n)) eqn:K.
    - rewrite <- (subst_map A r v o (args g n) Hr). apply sem_comm_perm; [assumption|].
      apply Permutation_map, Permutation_sym, P5.
    - rewrite P6 by assumption. now rewrite subst_map. }
  split; [split|split; [split|]].
  - destruct B. split; try assumption.
    + intros n Hn. rewrite P1. auto.
    + intros n Hn. rewrite P4. auto.
    + intros n Hn. specialize (P5 n). rewrite bo_dead in P5 by assumption. cbn in P5.
      now apply Permutation_sym, Permutation_nil in P5.
    + intros n Hn K. rewrite P2 in K. apply P8; auto.
    + intros n Hn K. rewrite P2 in K. rewrite Len. auto.
    + intros n Hn K. rewrite P2 in K. rewrite P3. destruct (bo_scalar n Hn K) as (u & E1 & E2 & E3). exists u.
      split; [assumption|]. split; [assumption|]. now apply Homog.
    + intros n Hn. rewrite P2, P3. destruct (commutative (op_of g n)) eqn:K.
      * destruct (bo_scalar n Hn K) as (u & E1 & E2 & E3). rewrite (bo_typed n Hn).
        destruct (args g n) as [|a0 al] eqn:Ea; [specialize (bo_many n Hn K); rewrite Ea in bo_many; cbn in bo_many; lia|].
        destruct (args g' n) as [|a1 al'] eqn:Ea'; [specialize (Len n); rewrite Ea, Ea' in Len; discriminate|].
        cbn [map]. rewrite (E3 a0) by now left.
        assert (Ha1 : ty_of g' a1 = TScalar u) by (apply (Homog n u); [rewrite Ea; exact E3|rewrite Ea'; now left]).
        rewrite Ha1. now rewrite !ft_comm.
      * rewrite P6 by assumption. rewrite (bo_typed n Hn). f_equal. rewrite map_map. apply map_ext.
        intros a. rewrite P3. unfold subst_name. destruct (Nat.eqb_spec a v) as [->|]; [assumption|reflexivity].
    + intros n Hn. rewrite P2, Len. auto.
    + intros n Hn. rewrite P2. auto.
  - intros n a Hn Ha. apply (Permutation_in a (P5 n)) in Ha. apply in_map_iff in Ha as (x & <- & Hx).
    unfold subst_name. destruct (Nat.eqb_spec x v) as [->|]; [now apply Hb|now apply O].
  - lia.
  - intros A r C. exists r. split; [reflexivity|now apply Cons].
  - intros n u k. rewrite P2. tauto.
  - intros n L. left. rewrite P2. split; [lia|reflexivity].
  - auto.
  - intros H n a Hn Ha. rewrite P3. apply (Permutation_in a (P5 n)) in Ha. apply in_map_iff in Ha as (x & <- & Hx).
    unfold subst_name. destruct (Nat.eqb_spec x v) as [->|]; [rewrite <- Ht|]; now apply (H n).
  - split; [assumption|]. split; [intros; now split|]. split; [assumption|]. split; [assumption|]. split; assumption.
Qed.

Lemma remove_step g b l1 v l2 :
  program T g b (l1 ++ v :: l2) -> cons_of g v = [] -> is_sink (op_of g v) = false ->
  exists g', remove_value g v = Ok g' /\
    program T g' b (l1 ++ l2) /\ sim g (l1 ++ v :: l2) g' (l1 ++ l2) /\ g_next g' = g_next g /\
    (forall n, op_of g' n = op_of g n /\ ty_of g' n = ty_of g n) /\
    (forall n, args g' n = if n =? v then [] else args g n) /\
    (forall n, cons_of g n = [] -> cons_of g' n = []).
Proof.
  intros [B O] Hc Hs.
  destruct (remove_value_spec g v (bo_def_use _ _ _ B) Hc) as (g' & E & P1 & P2 & P3 & P4 & P5 & P6 & P7 & P8).
  exists g'. split; [assumption|].
  assert (In_mid : forall n, In n (l1 ++ v :: l2) <-> n = v \/ In n (l1 ++ l2)).
  { intros n. rewrite !in_app_iff. cbn. intuition congruence. }
  pose proof (bo_nodup _ _ _ B) as ND.
  assert (Nv : ~ In v (l1 ++ l2)) by now apply nodup_mid in ND.
  assert (Hne : forall n, In n (l1 ++ l2) -> n <> v) by (intros n Hn ->; contradiction).
  assert (Ha : forall n, In n (l1 ++ l2) -> args g' n = args g n).
  { intros n Hn. rewrite P5. destruct (Nat.eqb_spec n v); [now apply Hne in Hn|reflexivity]. }
  split; [split|split; [split|]].
  - destruct B. split; try assumption.
    + now apply nodup_mid in ND.
    + intros n Hn. rewrite P1. apply bo_fresh, In_mid. now right.
    + intros n Hn. rewrite P4. apply bo_parent, In_mid. now right.
    + intros n Hn. rewrite P5. destruct (Nat.eqb_spec n v) as [|]; [reflexivity|]. apply bo_dead.
      rewrite In_mid. tauto.
    + intros n Hn K. rewrite P2 in K. rewrite Ha by assumption. apply bo_sorted; [apply In_mid; now right|assumption].
    + intros n Hn K. rewrite P2 in K. rewrite Ha by assumption. apply bo_many; [apply In_mid; now right|assumption].
    + intros n Hn K. rewrite P2 in K. rewrite P3, Ha by assumption.
      destruct (bo_scalar n (proj2 (In_mid n) (or_intror Hn)) K) as (u & E1 & E2 & E3). exists u.
      split; [assumption|]. split; [assumption|]. intros a Hx. rewrite P3. now apply E3.
    + intros n Hn. rewrite P2, P3, Ha by assumption. rewrite (bo_typed n (proj2 (In_mid n) (or_intror Hn))). f_equal.
      apply map_ext. intros a. now rewrite P3.
    + intros n Hn. rewrite P2, Ha by assumption. apply bo_arity, In_mid. now right.
    + intros n Hn. rewrite P2. apply bo_plain, In_mid. now right.
  - intros n a Hn Hx. rewrite Ha in Hx by assumption. apply before_remove with (x := v); try assumption.
    + intros ->. pose proof (bo_def_use _ _ _ B v n) as DU. rewrite Hc in DU. apply cnt_in in Hx. cbn in DU. lia.
    + now apply Hne.
    + apply O; [apply In_mid; now right|assumption].
  - lia.
  - intros A r C. exists r. split; [reflexivity|]. intros n Hn. rewrite P2, Ha by assumption. apply C, In_mid. now right.
  - intros n u k. rewrite P2, In_mid. split; [|tauto]. intros [[->|Hn] Ho]; [|tauto].
    rewrite Ho in Hs. discriminate.
  - intros n L. left. rewrite P2. split; [lia|reflexivity].
  - intros n Hn. left. apply In_mid. now right.
  - intros H n a Hn Hx. rewrite P3. rewrite Ha in Hx by assumption. apply (H n); [apply In_mid; now right|assumption].
  - split; [assumption|]. split; [intros; now split|]. split; assumption.
Qed.

Lemma set_op_step g b l v o t k :
  program T g b l -> In v l -> op_fits g o t k -> t = ty_of g v -> (forall a, In a k -> before l a v) ->
  (forall u s, op_of g v <> OSave u s) ->
  (forall A (r : name -> D A), consistent r g l -> r v = sem A o (map r k)) ->
  exists g', set_operation g v o t k = Ok g' /\
    program T g' b l /\ sim g l g' l /\ g_next g' = g_next g /\
    (forall n, op_of g' n = if n =? v then o else op_of g n) /\
    (forall n, args g' n = if n =? v then maybe_sort o k else args g n) /\
    (forall A (r : name -> D A), consistent r g l -> consistent r g' l).
Proof.
  intros [B O] Hv [[F1 F2 F3 F6 F4] F5 F7] Ht Hk Hs Hr.
  assert (Nk : ~ In v k). { intros H. apply (before_irrefl l v (bo_nodup _ _ _ B)). auto. }
  destruct (set_operation_spec g v o t k (bo_def_use _ _ _ B) F1 Nk) as (g' & E & P1 & P2 & P3 & P4 & P5 & P6).
  exists g'. split; [assumption|].
  assert (Len : length (maybe_sort o k) = length k) by apply Permutation_length, maybe_sort_perm.
  assert (Cons : forall A (r : name -> D A), consistent r g l -> consistent r g' l).
  { intros A r C n Hn. rewrite P2, P5. destruct (Nat.eqb_spec n v) as [->|]; [|now apply C].
    rewrite sem_maybe_sort. now apply Hr. }
  split; [split|split; [split|]].
  - assert (TyE : forall n, ty_of g' n = ty_of g n).
    { intros n. rewrite P3. destruct (Nat.eqb_spec n v) as [->|]; [assumption|reflexivity]. }
    destruct B. split; try assumption; intros n Hn; try (rewrite P1 || rewrite P4); auto;
      rewrite ?TyE, ?P2, ?P5; destruct (Nat.eqb_spec n v) as [->|]; auto; try contradiction.
    + apply sorted_maybe.
    + now rewrite Len.
    + intros C. destruct (F3 C) as (u & E1 & E2 & E3). exists u. split; [congruence|]. split; [assumption|].
      intros a Ha. apply (Permutation_in a (maybe_sort_perm o k)) in Ha. rewrite TyE. now apply E3.
    + intros C. destruct (bo_scalar n Hn C) as (u & E1 & E2 & E3). exists u. split; [assumption|]. split; [assumption|].
      intros a Ha. rewrite TyE. now apply E3.
    + rewrite <- Ht, F6. unfold maybe_sort. destruct (commutative o) eqn:C.
      * destruct (F3 eq_refl) as (u & E1 & E2 & E3). apply typed_perm with u; auto.
        -- apply sort_perm.
        -- intros a Ha. apply (Permutation_in a (sort_perm k)) in Ha. rewrite TyE. now apply E3.
        -- now apply many_nonempty, F2.
      * f_equal. apply map_ext. intros a. now rewrite TyE.
    + rewrite (bo_typed n Hn). f_equal. apply map_ext. intros a. now rewrite TyE.
    + now rewrite Len.
  - intros n a Hn Ha. rewrite P5 in Ha. destruct (Nat.eqb_spec n v) as [->|]; [|now apply O].
    apply Hk. apply (Permutation_in a (maybe_sort_perm o k) Ha).
  - lia.
  - intros A r C. exists r. split; [reflexivity|now apply Cons].
  - intros n u s. rewrite P2. destruct (Nat.eqb_spec n v) as [->|]; [|tauto]. split; intros [H1 H2].
    + now apply Hs in H2.
    + now apply (pass_op_save o u s F5) in H2.
  - intros n L. rewrite P2. destruct (n =? v); [now right|left]. split; [lia|reflexivity].
  - auto.
  - intros H n a Hn Ha. assert (TyE : forall m, ty_of g' m = ty_of g m).
    { intros m. rewrite P3. destruct (Nat.eqb_spec m v) as [->|]; [assumption|reflexivity]. }
    rewrite TyE. rewrite P5 in Ha. destruct (n =? v); [|now apply (H n)]. apply F7. apply (Permutation_in a (maybe_sort_perm o k) Ha).
  - split; [assumption|]. split; [assumption|]. split; assumption.
Qed.

(** * Running a program *)
Section Running.
  Variable A : algebra.
  Lemma read_all_map (e : env A) (r : name -> D A) l :
    (forall a, In a l -> e a = Some (r a)) -> read_all A e l = Some (map r l).
  Proof.
    induction l as [|a t IH]; intros H; [reflexivity|]. cbn. rewrite (H a) by now left.
    rewrite IH; [reflexivity|]. intros b Hb. apply H. now right.
  Qed.

  Lemma exec_consistent g b l2 : forall l1 (e : env A) (r : name -> D A),
    program T g b (l1 ++ l2) -> consistent r g (l1 ++ l2) ->
    (forall v, In v l1 -> e v = Some (r v)) ->
    exists e', exec A g l2 e = Some e' /\ forall v, In v (l1 ++ l2) -> e' v = Some (r v).
  Proof.
    induction l2 as [|v t IH]; intros l1 e r P C H.
    - exists e. split; [reflexivity|]. now rewrite app_nil_r.
    - cbn [exec]. rewrite read_all_map with (r := r).
      + assert (Q : l1 ++ v :: t = (l1 ++ [v]) ++ t) by now rewrite <- app_assoc.
        rewrite Q in *. apply IH; [assumption|assumption|].
        intros w Hw. unfold set_env. destruct (Nat.eqb_spec w v) as [->|N].
        * f_equal. symmetry. apply C. rewrite <- Q, in_app_iff. cbn. tauto.
        * apply H. apply in_app_or in Hw as [|[|[]]]; [assumption|congruence].
      + intros a Ha. apply H. destruct P as [B O]. destruct (O v a) as (m1 & m2 & E & Hm); [|assumption|].
        * apply in_or_app. right. now left.
        * assert (m1 = l1) as ->; [|assumption].
          pose proof (bo_nodup _ _ _ B) as ND.
          clear - E ND. revert m1 E. induction l1 as [|x l1 IH]; intros m1 E.
          -- destruct m1 as [|y m1]; [reflexivity|]. injection E as <- E2. exfalso.
             inversion ND as [|? ? N _]. apply N. rewrite E2. apply in_or_app. right. now left.
          -- destruct m1 as [|y m1].
             ++ injection E as -> E2. exfalso. inversion ND as [|? ? N _]. apply N. apply in_or_app. right. now left.
             ++ injection E as <- E2. f_equal. apply IH; [now inversion ND|assumption].
  Qed.

  (** Every program has a consistent valuation: the one it computes. *)
  Lemma consistent_exists g b l2 : forall l1 (r : name -> D A),
    program T g b (l1 ++ l2) -> consistent r g l1 -> exists r' : name -> D A, consistent r' g (l1 ++ l2).
  Proof.
    induction l2 as [|v t IH]; intros l1 r P C.
    - exists r. now rewrite app_nil_r.
    - assert (Q : l1 ++ v :: t = (l1 ++ [v]) ++ t) by now rewrite <- app_assoc.
      rewrite Q in *. set (d := sem A (op_of g v) (map r (args g v))).
      apply IH with (r := fun m => if m =? v then d else r m); [assumption|].
      destruct P as [B O]. pose proof (bo_nodup _ _ _ B) as ND.
      assert (Nv : ~ In v l1).
      { rewrite <- Q in ND. apply nodup_mid in ND as [_ N]. intros H. apply N, in_or_app. now left. }
      assert (Hb : forall w a, In w (l1 ++ [v]) -> In a (args g w) -> a <> v).
      { intros w a Hw Ha ->. assert (Hb : before ((l1 ++ [v]) ++ t) v w).
        { apply O; [apply in_or_app; now left|assumption]. }
        rewrite <- Q in Hb, ND. change (v :: t) with ([v] ++ t) in Hb, ND.
        apply before_split in Hb; [|assumption].
        destruct Hb as [Hb|[[Hb _]|Hb]]; [apply before_in in Hb; tauto|tauto|].
        apply in_app_or in Hw as [Hw|[<-|[]]].
        - apply before_in in Hb as [_ Hb]. apply nodup_app_r in ND as ND2.
          clear - Hw Hb ND.
          apply in_split in Hw as (x1 & x2 & ->). rewrite <- app_assoc in ND. cbn in ND.
          apply nodup_mid in ND as [_ N]. apply N. rewrite !in_app_iff. cbn in *. tauto.
        - apply nodup_app_r in ND. now apply before_irrefl in Hb. }
      assert (Hmap : forall w, In w (l1 ++ [v]) -> map (fun m => if m =? v then d else r m) (args g w) = map r (args g w)).
      { intros w Hw. apply map_ext_in. intros a Ha. destruct (Nat.eqb_spec a v); [now apply Hb in Ha|reflexivity]. }
      intros w Hw. rewrite Hmap by assumption. destruct (Nat.eqb_spec w v) as [->|N]; [reflexivity|].
      apply C. apply in_app_or in Hw as [|[|[]]]; [assumption|congruence].
  Qed.
End Running.

Lemma writes_save A g b l (r : name -> D A) e u k d :
  program T g b l -> consistent r g l -> (forall v, In v l -> e v = Some (r v)) ->
  writes A g l e u k d <-> exists v, In v l /\ op_of g v = OSave u k /\ r v = d.
Proof.
  intros [B O] C E. split.
  - intros (v & a & Hv & Ho & Ha & Hd). exists v. split; [assumption|]. split; [assumption|].
    rewrite (C v Hv), Ho, Ha. cbn. rewrite sem_save.
    assert (In a l) as Hl by (eapply args_in; [exact O|exact Hv|rewrite Ha; now left]).
    rewrite (E a Hl) in Hd. now injection Hd.
  - intros (v & Hv & Ho & Hd). pose proof (bo_arity _ _ _ B v Hv) as Ar. rewrite Ho in Ar. cbn in Ar.
    destruct (args g v) as [|a [|]] eqn:Ea; try discriminate.
    exists v, a. split; [assumption|]. split; [assumption|]. split; [assumption|].
    assert (In a l) as Hl by (eapply args_in; [exact O|exact Hv|rewrite Ea; now left]).
    rewrite (E a Hl). f_equal. rewrite <- Hd, (C v Hv), Ho, Ea. cbn. now rewrite sem_save.
Qed.

Theorem sim_same_outputs g b l g' b' l' :
  program T g b l -> program T g' b' l' -> sim g l g' l' -> same_outputs (g, l) (g', l').
Proof.
  intros P P' [N V S] A. cbn [fst snd].
  destruct (consistent_exists A g b l [] (fun _ => d0 A)) as (r & C); [assumption|intros v []|]. cbn [app] in C.
  destruct (V A r C) as (r' & E & C').
  destruct (exec_consistent A g b l [] (no_values A) r) as (e & X & Y); [assumption|assumption|intros v []|].
  destruct (exec_consistent A g' b' l' [] (no_values A) r') as (e' & X' & Y'); [assumption|assumption|intros v []|].
  exists e, e'. split; [assumption|]. split; [assumption|]. cbn [app] in *.
  intros u k d. rewrite (writes_save A g b l r), (writes_save A g' b' l' r') by assumption.
  split; intros (v & H1 & H2 & H3); exists v.
  - destruct (proj1 (S v u k) (conj H1 H2)) as [H1' H2']. split; [assumption|]. split; [assumption|].
    rewrite E; [assumption|]. destruct P as [B _]. now apply (bo_fresh _ _ _ B).
  - destruct (proj2 (S v u k) (conj H1 H2)) as [H1' H2']. split; [assumption|]. split; [assumption|].
    rewrite <- E; [assumption|]. destruct P as [B _]. now apply (bo_fresh _ _ _ B).
Qed.

(** * Programs built from scratch *)
Definition vtype_eqb (a b : vtype) : bool := if vtype_dec a b then true else false.
(** Checks one instruction given the types of the values before it. *)
Definition instr_ok (F : op -> list vtype -> vtype) (tys : list vtype) (i : op * vtype * list name) : bool :=
  let '(o, t, l) := i in
  forallb (fun a => a <? length tys) l
  && arity_ok o (length l)
  && (negb (commutative o) || ((2 <=? length l) && match t with TScalar NInt | TScalar NFloat => true | _ => false end
                               && forallb (fun a => vtype_eqb (nth a tys TVoid) t) l))
  && vtype_eqb t (F o (map (fun a => nth a tys TVoid) l))
  && match o with OPhi | OJump | OCast NBool => false | _ => true end.
Fixpoint instrs_ok (F : op -> list vtype -> vtype) (tys : list vtype) (p : list (op * vtype * list name)) : bool :=
  match p with [] => true | i :: t => instr_ok F tys i && instrs_ok F (tys ++ [snd (fst i)]) t end.

Lemma vtype_eqb_eq a b : vtype_eqb a b = true -> a = b.
Proof. unfold vtype_eqb. destruct (vtype_dec a b); congruence. Qed.

Lemma build_gen : forall p g tys,
  g_next g = length tys -> program T g 0 (seq 0 (length tys)) -> (forall a, a < length tys -> ty_of g a = nth a tys TVoid) ->
  instrs_ok (ft T) tys p = true ->
  exists g', mfold build_step p (g, seq 0 (length tys)) = Ok (g', seq 0 (length tys + length p)) /\
    program T g' 0 (seq 0 (length tys + length p)).
Proof.
  induction p as [|[[o t] l] p IH]; intros g tys N P Ty H.
  - exists g. rewrite Nat.add_0_r. now split.
  - cbn [instrs_ok instr_ok fst snd] in H. apply Bool.andb_true_iff in H as [H1 H2].
    rewrite !Bool.andb_true_iff in H1. destruct H1 as [[[[H1 H3] H4] H5] H6].
    rewrite forallb_forall in H1.
    assert (Hlt : forall a, In a l -> a < length tys) by (intros a Ha; specialize (H1 a Ha); now apply Nat.ltb_lt in H1).
    assert (I : incl l (seq 0 (length tys))). { intros a Ha. apply in_seq. specialize (Hlt a Ha). lia. }
    assert (P0 : program T g 0 (seq 0 (length tys) ++ [])) by now rewrite app_nil_r.
    assert (K : op_ok g o t l).
    { apply Bool.orb_true_iff in H4. rewrite Bool.negb_true_iff, !Bool.andb_true_iff in H4. split.
      - assumption.
      - intros C. destruct H4 as [H4|[[H4 _] _]]; [congruence|now apply Nat.leb_le].
      - intros C. destruct H4 as [H4|[[_ H7] H8]]; [congruence|]. rewrite forallb_forall in H8.
        assert (Hty : forall a, In a l -> ty_of g a = t).
        { intros a Ha. rewrite Ty by now apply Hlt. apply vtype_eqb_eq. now apply H8. }
        destruct t as [|[]| |]; try discriminate; eexists; (split; [reflexivity|split; [discriminate|assumption]]).
      - apply vtype_eqb_eq in H5. rewrite H5 at 1. f_equal. apply map_ext_in. intros a Ha. symmetry. apply Ty. now apply Hlt.
      - repeat split; intros ->; discriminate. }
    destruct (push_any_step g 0 _ [] o t l P0 I K) as (g' & E & P' & _ & N' & _ & Et & _ & Old).
    cbn [mfold build_step]. rewrite E. cbn [bind fst snd]. rewrite N in P', N', Et, Old |- *.
    assert (Es : @app name (seq 0 (length tys)) (@cons name (length tys) nil) = seq 0 (length (tys ++ [t]))).
    { rewrite app_length. cbn [length]. replace (length tys + 1) with (S (length tys)) by lia. symmetry. apply (seq_S (length tys) 0). }
    rewrite Es in P' |- *. destruct (IH g' (tys ++ [t])) as (g2 & E2 & P2).
    + rewrite N', app_length. cbn. lia.
    + assumption.
    + intros a Ha. rewrite app_length in Ha. cbn in Ha. destruct (Nat.eq_dec a (length tys)) as [->|].
      * rewrite Et, app_nth2, Nat.sub_diag by lia. reflexivity.
      * destruct (Old a) as (_ & -> & _); [assumption|]. rewrite app_nth1 by lia. apply Ty. lia.
    + assumption.
    + assert (Hl : length (tys ++ [t]) + length p = length tys + length ((o, t, l) :: p)) by (rewrite app_length; cbn; lia).
      rewrite Hl in E2, P2. exists g2. now split.
Qed.

Theorem build_program p : instrs_ok (ft T) [] p = true ->
  exists g, build p = Ok (g, seq 0 (length p)) /\ program T g 0 (seq 0 (length p)).
Proof.
  intros H. unfold build. apply (build_gen p empty_graph [] eq_refl); [|cbn; lia|assumption]. split.
  - change (seq 0 (length (@nil vtype))) with (@nil name).
    split; try (intros w Hw; solve [inversion Hw]); [apply NoDup_nil|intros v c; reflexivity|intros v Hv; reflexivity].
  - intros v a [].
Qed.
End Steps.
