(** Inserting a branch keeps the invariant of the converter. *)
From Coq Require Import String List Arith ZArith Bool Lia Permutation.
From Verif Require Import Outcome NumProofs IrModel IrSpec IrProofs CfgModel CfgSpec CountProofs ConvModel ConvSpec ConvShape ConvBlocks ConvGroup ConvInv.
Import ListNotations.
Open Scope outcome_scope.
Open Scope nat_scope.

Lemma closed_new g g' l : closed_graph g -> (forall a, In a l -> a < g_next g) -> g_next g' = S (g_next g) ->
  (forall x, args g' x = if x =? g_next g then l else args g x) -> (forall x, x <> g_next g -> parent g' x = parent g x) ->
  (forall a c, count_occ Nat.eq_dec (cons_of g' a) c =
     (if a =? g_next g then 0 else count_occ Nat.eq_dec (cons_of g a) c) + (if c =? g_next g then count_occ Nat.eq_dec l a else 0)) ->
  closed_graph g'.
Proof.
  intros [U Ar F] Hl G Ag Pa Co. constructor.
  - intros a c. rewrite Co, Ag. destruct (Nat.eqb_spec c (g_next g)) as [Ec|Nc].
    + destruct (Nat.eqb_spec a (g_next g)); [lia|]. rewrite U. rewrite Ec, (proj1 (F (g_next g) (Nat.le_refl _))). cbn. lia.
    + destruct (Nat.eqb_spec a (g_next g)) as [Ea|Na]; [|rewrite U; lia]. rewrite Ea.
      assert (~ In (g_next g) (args g c)) as K by (intros K; apply Ar in K; lia). apply (count_occ_not_In Nat.eq_dec) in K. lia.
  - intros x a. rewrite Ag, G. destruct (Nat.eqb_spec x (g_next g)).
    + intros K. specialize (Hl _ K). lia.
    + intros K. apply Ar in K. lia.
  - intros x L'. rewrite G in L'. rewrite Ag, Pa by lia. destruct (Nat.eqb_spec x (g_next g)); [lia|]. apply F. lia.
Qed.

Section Branch.
Variables (A : algebra) (Q : selecting A) (T : typing) (g0 : graph) (ops0 : list name) (r0 : name -> D A).
Hypothesis P0 : program T g0 0 ops0.
Hypothesis C0 : consistent r0 g0 ops0.
Notation N0 := (g_next g0).
Variable ok : name -> Prop.
Hypothesis Ok1 : forall v, ok v -> In v ops0.
Hypothesis Ok2 : forall v a, ok v -> In a (args g0 v) -> ok a.
Notation oks l := (forall x, In x l -> ok x).
Notation inv := (inv A Q g0 r0 ok).

Lemma branch_inv r e opts st o vs cond st3 st4 ql qr st5 jump : inv r e opts st -> o < length (s_blocks st) ->
  (forall v t, op_of (s_g st) v = OPhi -> parent (s_g st) v = S t -> t <> o) ->
  NoDup vs -> vs <> [] -> (forall v, In v vs -> ready_select ok st o v) -> (forall v, In v vs -> exists l, args (s_g st) v = cond :: l) ->
  st3 = mks (s_g st) ((s_blocks st ++ [mkb [] [] []]) ++ [mkb [] [] []]) (s_visited st) ->
  mfold (group_step (length (s_blocks st)) (S (length (s_blocks st))) o) vs (st3, [], []) = Ok (st4, ql, qr) ->
  insert_branch st4 (length (s_blocks st)) (S (length (s_blocks st))) o cond (rev vs) = Ok (st5, jump) ->
  exists r', inv r' (redir (length (s_blocks st)) o e) opts st5 /\ frame A o r st r' st5 /\ oks ql /\ oks qr /\
    jump = S (S (length (s_blocks st))) /\ length (s_blocks st5) = S (S (S (length (s_blocks st)))) /\
    (forall v t, op_of (s_g st5) v = OPhi -> parent (s_g st5) v = S t -> t < length (s_blocks st)).
Proof.
  intros I Lo Np NDv Nv Rv Hv E3 E4 E5. set (n := length (s_blocks st)) in *.
  pose proof (i_core _ _ _ _ _ _ _ _ _ I) as Cr. destruct Cr as [Sh U Ow ND Avl Ju Tw Ph Va].
  pose proof (i_closed _ _ _ _ _ _ _ _ _ I) as CG. set (g := s_g st) in *. set (N := g_next g) in *.
  assert (LN : N0 <= N) by apply (i_next _ _ _ _ _ _ _ _ _ I).
  assert (B3 : forall t, nth_block (s_blocks st3) t = nth_block (s_blocks st) t).
  { intros t. subst st3. cbn [s_blocks]. rewrite !nth_block_app, app_length. cbn [length]. fold n.
    destruct (Nat.eqb_spec t (n + 1)); [now rewrite nth_block_out by (fold n; lia)|]. destruct (Nat.eqb_spec t n); [now rewrite nth_block_out by (fold n; lia)|auto]. }
  assert (L3 : length (s_blocks st3) = S (S n)) by (subst st3; cbn [s_blocks]; rewrite !app_length; cbn [length]; fold n; lia).
  assert (G3 : s_g st3 = g) by (subst st3; reflexivity). assert (V3 : s_visited st3 = s_visited st) by (subst st3; reflexivity).
  clear E3.
  (* what the selects are *)
  assert (SV : forall v, In v vs -> ok v /\ v < N0 /\ parent g v = 0 /\ op_of g0 v = OCond /\ exists a b, args g v = [cond; a; b] /\ args g0 v = [cond; a; b] /\ ok cond /\ ok a /\ ok b).
  { intros v K. destruct (Rv v K) as (Iv & Uv & Ov & _). pose proof (ok_lt T g0 ops0 P0 ok Ok1 v Iv) as Lv.
    pose proof (unvisited_unplaced _ _ _ _ _ _ _ _ _ v I Lv Uv) as Pv. destruct (unplaced_same _ _ _ _ _ _ _ _ _ v I Lv Pv) as [X Y]. fold g in Ov, Pv, X, Y.
    split; [auto|]. split; [auto|]. split; [auto|]. split; [congruence|].
    destruct (Hv v K) as (l & El). fold g in El. pose proof (bo_arity g0 0 ops0 (proj1 P0) v (Ok1 v Iv)) as Ar. rewrite <- X, Ov, <- Y, El in Ar.
    destruct l as [|a [|b [|]]]; try discriminate Ar. exists a, b. rewrite El in Y. 
    assert (Z : forall x, In x [cond; a; b] -> ok x) by (rewrite Y; intros x; apply (Ok2 v x Iv)).
    split; auto. split; auto. split; [apply Z; cbn; auto|]. split; apply Z; cbn; auto. }
  assert (UN : forall x, (exists v, In v vs /\ In x (args g v)) -> parent g x = 0 /\ ~ In x vs).
  { intros x (v & K & Hx). destruct (SV v K) as (_ & _ & Pv & _). split.
    - destruct (Nat.eq_dec (parent g x) 0); auto. exfalso. exact (i_up _ _ _ _ _ _ _ _ _ I x v Hx n0 Pv).
    - intros Kx. destruct (Rv x Kx) as (_ & _ & _ & Z). destruct (Z v Hx) as (t & Z1 & _). fold g in Z1. congruence. }
  destruct (group_all n (S n) o ltac:(lia) vs st3 [] [] st4 ql qr E4) as (ts & RG & Ql & Qr).
  { now rewrite G3. } { lia. } { lia. } { auto. }
  { intros v K. rewrite G3. destruct (SV v K) as (_ & L & Pv & _ & a & b & Ea & _). split; [fold N; lia|]. split; [|eauto].
    intros Kv. destruct (Rv v K) as (_ & _ & _ & Z). destruct (Z v Kv) as (t & Z1 & _). fold g in Z1. congruence. }
  destruct RG as [Rvs Rlen Rnext Rcl Rphi Rleft Rright Rsame Rnew Rndl Rndr Rops Ranc Rdesc Rvis].
  rewrite G3 in *. fold N in Rnext, Rleft, Rright, Rsame, Rnew, Rvis.
  assert (Vb : exists v0, In v0 vs) by (destruct vs as [|v0 q]; [contradiction|exists v0; now left]).
  destruct Vb as (v0 & Hv0). destruct (SV v0 Hv0) as (_ & _ & Pv0 & _ & a0 & b0 & Ea0 & _ & Ic & _).
  pose proof (ok_lt T g0 ops0 P0 ok Ok1 cond Ic) as Lc.
  assert (Uc : parent g cond = 0 /\ ~ In cond vs) by (apply UN; exists v0; split; auto; rewrite Ea0; now left).
  assert (OutD : forall t, n <= t -> bdesc (s_blocks st) t = [] /\ banc (s_blocks st) t = [] /\ bops (s_blocks st) t = []) by (intros t L; rewrite nth_block_out by (fold n; lia); auto).
  assert (An4 : forall t, banc (s_blocks st4) t = banc (s_blocks st) t) by (intros t; now rewrite Ranc, B3).
  assert (De4 : forall t, bdesc (s_blocks st4) t = bdesc (s_blocks st) t) by (intros t; now rewrite Rdesc, B3).
  destruct (insert_branch_spec st4 n o cond (rev vs) st5 jump) as (Ej & L5 & (Dj & Dl & Dr & Dt & Uo & Ul & Ur & Uj & Ut) & (Oj & Ot) & G5 & V5 & O5 & A5 & P5 & K5).
  { lia. } { auto. } { rewrite An4, De4. destruct (OutD n) as (X & Y & _); auto. } { rewrite An4, De4. destruct (OutD (S n)) as (X & Y & _); auto. }
  { intros t. rewrite De4. apply (sh_down _ _ _ _ Sh). } { rewrite An4. apply (sh_up _ _ _ _ Sh). }
  { intros a x. rewrite An4, De4. apply (sh_edge _ _ _ _ Sh). } { intros a x. rewrite De4. apply (sh_range _ _ _ _ Sh). }
  { lia. } { exact E5. }
  set (jv := g_next (s_g st4)) in *.
  assert (Uj' : banc (s_blocks st5) (S (S n)) = banc (s_blocks st) o) by (now rewrite Uj).
  assert (Dt' : forall t, t <> S (S n) -> t <> n -> t <> S n -> bdesc (s_blocks st5) t = map (redir n o) (bdesc (s_blocks st) t)) by (intros t X Y Z; rewrite Dt by auto; now rewrite De4).
  assert (Ut' : forall t, t <> o -> t <> n -> t <> S n -> t <> S (S n) -> banc (s_blocks st5) t = banc (s_blocks st) t) by (intros t W X Y Z; rewrite Ut by auto; apply An4).
  assert (DOM : forall u t, t < n -> dom (fun t => banc (s_blocks st) t) u t -> dom (fun t => banc (s_blocks st5) t) u t).
  { intros u t. apply (dom_diamond n (fun t => bdesc (s_blocks st) t) (fun t => banc (s_blocks st) t) (fun t => banc (s_blocks st5) t) e o); auto. }
  assert (ENT : forall i k t, t < n -> enters (fun t => bdesc (s_blocks st) t) (fun t => banc (s_blocks st) t) i k t -> enters (fun t => bdesc (s_blocks st5) t) (fun t => banc (s_blocks st5) t) i k t).
  { intros i k t. apply (enters_diamond n _ _ (fun t => bdesc (s_blocks st5) t) (fun t => banc (s_blocks st5) t) e o); auto. }
  assert (LEN : forall t, t < n -> length (bdesc (s_blocks st5) t) = length (bdesc (s_blocks st) t)).
  { intros t L. rewrite Dt' by lia. apply map_length. }
  assert (LEN2 : forall t, length (bdesc (s_blocks st5) t) = 2 -> t = S (S n) \/ t < n /\ length (bdesc (s_blocks st) t) = 2).
  { intros t X. destruct (Nat.eq_dec t (S (S n))) as [|N1]; auto. destruct (Nat.eq_dec t n) as [->|N2]; [rewrite Dl in X; discriminate|].
    destruct (Nat.eq_dec t (S n)) as [->|N3]; [rewrite Dr in X; discriminate|]. rewrite Dt', map_length in X by auto. right. split; auto.
    destruct (Nat.lt_ge_cases t n); auto. destruct (OutD t) as (Z & _); auto. rewrite Z in X. discriminate. }
  (* the operations of the blocks *)
  assert (Bn : bops (s_blocks st5) n = map tl_ ts).
  { rewrite Ot by lia. destruct (Nat.eqb_spec n o); [lia|]. rewrite Rops, Nat.eqb_refl, B3. destruct (OutD n) as (_ & _ & ->); auto. }
  assert (Bsn : bops (s_blocks st5) (S n) = map tr_ ts).
  { rewrite Ot by lia. destruct (Nat.eqb_spec (S n) o); [lia|]. rewrite Rops, B3. destruct (Nat.eqb_spec (S n) n); [lia|]. rewrite Nat.eqb_refl. destruct (OutD (S n)) as (_ & _ & ->); auto. }
  assert (Bo : bops (s_blocks st5) o = rev vs ++ bops (s_blocks st) o).
  { rewrite Ot by lia. rewrite Nat.eqb_refl, Rops, B3. destruct (Nat.eqb_spec o n); [lia|]. destruct (Nat.eqb_spec o (S n)); [lia|auto]. }
  assert (Bt : forall t, t < n -> t <> o -> bops (s_blocks st5) t = bops (s_blocks st) t).
  { intros t L No. rewrite Ot by lia. destruct (Nat.eqb_spec t o); [lia|]. rewrite Rops, B3. destruct (Nat.eqb_spec t n); [lia|]. destruct (Nat.eqb_spec t (S n)); [lia|auto]. }
  assert (Bsuf : forall t, t < n -> exists p, bops (s_blocks st5) t = p ++ bops (s_blocks st) t).
  { intros t L. destruct (Nat.eq_dec t o) as [->|]; [exists (rev vs); auto|exists []; cbn; auto]. }
  assert (Blt : forall x t, In x (bops (s_blocks st) t) -> t < n /\ x < N /\ ~ In x vs /\ parent g x = S t).
  { intros x t K. split; [now apply in_block_lt in K|]. pose proof (Ow x t K) as Px. split; [|split; auto].
    - destruct (Nat.lt_ge_cases x N) as [|G]; auto. destruct (cg_fresh _ CG x G) as [_ Z]. congruence.
    - intros Kv. destruct (SV x Kv) as (_ & _ & Z & _). congruence. }
  assert (Mono : forall x t, In x (bops (s_blocks st) t) -> In x (bops (s_blocks st5) t)).
  { intros x t K. destruct (Blt x t K) as (L & _). destruct (Bsuf t L) as (p & ->). rewrite in_app_iff. auto. }
  assert (CASES : forall x t, In x (bops (s_blocks st5) t) ->
     (t = S (S n) /\ x = jv) \/ (t = o /\ In x vs) \/ (t = n /\ exists z, In z ts /\ x = tl_ z) \/ (t = S n /\ exists z, In z ts /\ x = tr_ z) \/
     (t < n /\ In x (bops (s_blocks st) t) /\ x < N /\ ~ In x vs)).
  { intros x t K. destruct (Nat.eq_dec t (S (S n))) as [->|N1]; [rewrite Oj in K; destruct K as [<-|[]]; auto|].
    destruct (Nat.eq_dec t n) as [->|N2]; [rewrite Bn in K; apply in_map_iff in K; destruct K as (z & <- & K); right; right; left; eauto|].
    destruct (Nat.eq_dec t (S n)) as [->|N3]; [rewrite Bsn in K; apply in_map_iff in K; destruct K as (z & <- & K); right; right; right; left; eauto|].
    assert (Z : In x (bops (s_blocks st) t) -> t < n /\ In x (bops (s_blocks st) t) /\ x < N /\ ~ In x vs) by (intros Z; destruct (Blt x t Z) as (Z1 & Z2 & Z3 & _); auto).
    destruct (Nat.eq_dec t o) as [->|N4].
    - rewrite Bo, in_app_iff in K. destruct K as [K|K]; [apply in_rev in K; auto|]. do 4 right. auto.
    - destruct (Nat.lt_ge_cases t n) as [L|G]; [rewrite Bt in K by auto; do 4 right; auto|].
      exfalso. apply in_block_lt in K. lia. }
  (* the values *)
  assert (TSV : forall z, In z ts -> In (tv z) vs) by (intros z K; rewrite <- Rvs; now apply in_map).
  assert (VTS : forall v, In v vs -> exists z, In z ts /\ tv z = v) by (intros v K; rewrite <- Rvs in K; apply in_map_iff in K; destruct K as (z & X & Y); eauto).
  assert (SAME : forall x, x < N -> ~ In x vs -> op_of (s_g st5) x = op_of g x /\ args (s_g st5) x = args g x /\ parent (s_g st5) x = parent g x).
  { intros x L K. rewrite O5, A5, P5. destruct (Nat.eqb_spec x jv); [lia|]. now apply Rsame. }
  assert (PHI : forall z, In z ts -> op_of (s_g st5) (tv z) = OPhi /\ args (s_g st5) (tv z) = [tl_ z; tr_ z] /\ parent (s_g st5) (tv z) = S o).
  { intros z K. destruct (SV (tv z) (TSV z K)) as (_ & L & _). rewrite O5, A5, P5. destruct (Nat.eqb_spec (tv z) jv); [lia|]. now apply Rphi. }
  assert (COPL : forall z, In z ts -> N <= tl_ z < jv /\ op_of (s_g st5) (tl_ z) = OCopy /\ parent (s_g st5) (tl_ z) = S n /\ exists a b, args g (tv z) = [cond; a; b] /\ args (s_g st5) (tl_ z) = [a]).
  { intros z K. destruct (Rleft z K) as (X & Y & Z & c & a & b & W1 & W2). destruct (SV (tv z) (TSV z K)) as (_ & _ & _ & _ & a' & b' & W3 & _). rewrite W3 in W1. injection W1 as <- <- <-.
    rewrite O5, A5, P5. destruct (Nat.eqb_spec (tl_ z) jv); [lia|]. split; [auto|]. split; [auto|]. split; [auto|]. eauto. }
  assert (COPR : forall z, In z ts -> N <= tr_ z < jv /\ op_of (s_g st5) (tr_ z) = OCopy /\ parent (s_g st5) (tr_ z) = S (S n) /\ exists a b, args g (tv z) = [cond; a; b] /\ args (s_g st5) (tr_ z) = [b]).
  { intros z K. destruct (Rright z K) as (X & Y & Z & c & a & b & W1 & W2). destruct (SV (tv z) (TSV z K)) as (_ & _ & _ & _ & a' & b' & W3 & _). rewrite W3 in W1. injection W1 as <- <- <-.
    rewrite O5, A5, P5. destruct (Nat.eqb_spec (tr_ z) jv); [lia|]. split; [auto|]. split; [auto|]. split; [auto|]. eauto. }
  assert (JMP : op_of (s_g st5) jv = OJump /\ args (s_g st5) jv = [cond] /\ parent (s_g st5) jv = S (S (S n))) by (rewrite O5, A5, P5, Nat.eqb_refl; auto).
  assert (KINDS : forall x, (x < N /\ ~ In x vs) \/ (exists z, In z ts /\ x = tv z) \/ (exists z, In z ts /\ x = tl_ z) \/ (exists z, In z ts /\ x = tr_ z) \/ x = jv \/ S jv <= x).
  { intros x. destruct (in_dec Nat.eq_dec x vs) as [K|K]; [destruct (VTS x K) as (z & Z1 & Z2); right; left; eauto|].
    destruct (Nat.lt_ge_cases x N); auto. destruct (Nat.lt_ge_cases x jv) as [L|G].
    - destruct (Rnew x) as [Z|Z]; [fold jv; lia| |]; apply in_map_iff in Z; destruct Z as (z & Z1 & Z2); [right; right; left|right; right; right; left]; eauto.
    - do 4 right. lia. }
  assert (CG5 : closed_graph (s_g st5)).
  { apply (closed_new (s_g st4) (s_g st5) [cond]); auto.
    - intros a [<-|[]]. fold jv. lia.
    - intros x Nx. fold jv in Nx. rewrite P5. destruct (Nat.eqb_spec x jv); [contradiction|auto]. }
  set (r' := fun x => if x <? N then r x else sem A (op_of (s_g st5) x) (map r (args (s_g st5) x))).
  assert (Rold : forall x, x < N -> r' x = r x) by (intros x L; unfold r'; destruct (Nat.ltb_spec x N); [auto|lia]).
  assert (Rnew' : forall x, N <= x -> r' x = sem A (op_of (s_g st5) x) (map r (args (s_g st5) x))) by (intros x L; unfold r'; destruct (Nat.ltb_spec x N); [lia|auto]).
  assert (ARN : forall v a b, In v vs -> args g v = [cond; a; b] -> a < N0 /\ b < N0 /\ parent g a = 0 /\ parent g b = 0 /\ ~ In a vs /\ ~ In b vs /\ r v = if truth Q (r cond) then r a else r b).
  { intros v a b K Ea. destruct (SV v K) as (Iv & Lv & _ & Ov & a' & b' & Ea' & E0 & _ & Ia & Ib). rewrite Ea in Ea'. injection Ea' as <- <-.
    pose proof (ok_lt T g0 ops0 P0 ok Ok1 a Ia) as La. pose proof (ok_lt T g0 ops0 P0 ok Ok1 b Ib) as Lb.
    destruct (UN a) as [X1 X2]; [exists v; rewrite Ea; cbn; auto|]. destruct (UN b) as [Y1 Y2]; [exists v; rewrite Ea; cbn; auto|].
    split; [auto|]. split; [auto|]. split; [auto|]. split; [auto|]. split; [auto|]. split; [auto|].
    pose proof (C0 v (Ok1 v Iv)) as Z. rewrite Ov, E0 in Z. cbn [map] in Z. rewrite (sem_cond A Q) in Z. rewrite !(i_r _ _ _ _ _ _ _ _ _ I) by auto. exact Z. }
  assert (LTn : forall t, parent g t <> 0 -> t < N) by (intros t K; destruct (Nat.lt_ge_cases t N) as [|G]; auto; destruct (cg_fresh _ CG t G); contradiction).
  assert (NVS : forall x, parent g x <> 0 -> ~ In x vs) by (intros x K Kv; destruct (SV x Kv) as (_ & _ & Z & _); contradiction).
  exists r'. split; [|split; [|split; [|split; [|split; [|split]]]]]; auto.
  - constructor; auto.
    + constructor.
      * rewrite L5. apply (shape_diamond n (fun t => bdesc (s_blocks st) t) (fun t => banc (s_blocks st) t)); auto.
      * apply (cg_use _ CG5).
      * intros x t K. destruct (CASES x t K) as [[-> ->]|[[-> Kv]|[[-> (z & Kz & ->)]|[[-> (z & Kz & ->)]|(L & Kx & Lx & Nx)]]]].
        -- apply JMP.
        -- destruct (VTS x Kv) as (z & Kz & <-). apply (PHI z Kz).
        -- apply (COPL z Kz).
        -- apply (COPR z Kz).
        -- destruct (SAME x Lx Nx) as (_ & _ & ->). apply (Ow x t Kx).
      * intros t. destruct (Nat.eq_dec t (S (S n))) as [->|N1]; [rewrite Oj; repeat constructor; auto|].
        destruct (Nat.eq_dec t n) as [->|N2]; [now rewrite Bn|]. destruct (Nat.eq_dec t (S n)) as [->|N3]; [now rewrite Bsn|].
        destruct (Nat.lt_ge_cases t n) as [L|G].
        -- destruct (Nat.eq_dec t o) as [->|N4]; [|rewrite Bt by auto; apply ND]. rewrite Bo.
           assert (Z : forall l, NoDup l -> incl l (rev vs) -> NoDup (l ++ bops (s_blocks st) o)).
           { induction l as [|y q IHq]; intros Zn Zi; cbn; [apply ND|]. inversion Zn as [|y' q' Zy Zq]; subst. constructor; [|apply IHq; auto; intros w Hw; apply Zi; now right].
             rewrite in_app_iff. intros [K|K]; [contradiction|]. destruct (Blt _ _ K) as (_ & _ & K' & _). apply K'. apply in_rev. apply Zi. now left. }
           apply Z; [now apply NoDup_rev|intros w Hw; exact Hw].
        -- rewrite nth_block_out by lia. constructor.
      * intros x t a u K Npx Ha Pa. destruct (CASES x t K) as [[-> ->]|[[-> Kv]|[[-> (z & Kz & ->)]|[[-> (z & Kz & ->)]|(L & Kx & Lx & Nx)]]]].
        -- exfalso. destruct JMP as (_ & Z & _). rewrite Z in Ha. destruct Ha as [<-|[]]. destruct (SAME cond) as (_ & _ & Z'); [lia|tauto|]. rewrite Z' in Pa. destruct Uc. congruence.
        -- exfalso. destruct (VTS x Kv) as (z & Kz & <-). apply Npx. apply (PHI z Kz).
        -- exfalso. destruct (COPL z Kz) as (_ & _ & _ & a1 & b1 & Z1 & Z2). rewrite Z2 in Ha. destruct Ha as [<-|[]].
           destruct (ARN _ _ _ (TSV z Kz) Z1) as (X1 & X2 & X3 & X4 & X5 & X6 & _). destruct (SAME a1) as (_ & _ & Z'); [lia|auto|]. congruence.
        -- exfalso. destruct (COPR z Kz) as (_ & _ & _ & a1 & b1 & Z1 & Z2). rewrite Z2 in Ha. destruct Ha as [<-|[]].
           destruct (ARN _ _ _ (TSV z Kz) Z1) as (X1 & X2 & X3 & X4 & X5 & X6 & _). destruct (SAME b1) as (_ & _ & Z'); [lia|auto|]. congruence.
        -- destruct (SAME x Lx Nx) as (Z1 & Z2 & Z3). rewrite Z1 in Npx. rewrite Z2 in Ha. pose proof (cg_args _ CG x a Ha) as La. fold N in La.
           destruct (in_dec Nat.eq_dec a vs) as [Ka|Ka].
           ++ destruct (VTS a Ka) as (z & Kz & Ez). destruct (PHI z Kz) as (_ & _ & Pz). rewrite Ez, Pa in Pz. injection Pz as ->.
              destruct (Rv a Ka) as (_ & _ & _ & Z). destruct (Z x Ha) as (t' & Z4 & Z5). fold g in Z4. rewrite (Ow x t Kx) in Z4. injection Z4 as <-.
              split; [auto|]. split; [rewrite Bo, in_app_iff; left; now apply -> in_rev|].
              intros <-. rewrite Bo. apply before_app; auto. now apply -> in_rev.
           ++ destruct (SAME a La Ka) as (_ & _ & Z4). rewrite Z4 in Pa. destruct (Avl x t a u Kx Npx Ha Pa) as (X & Y & Z). split; [auto|]. split; [auto|].
              intros Eu. destruct (Bsuf t L) as (p & ->). apply before_right. auto.
      * intros x t K Ex. destruct (CASES x t K) as [[-> ->]|[[-> Kv]|[[-> (z & Kz & ->)]|[[-> (z & Kz & ->)]|(L & Kx & Lx & Nx)]]]].
        -- rewrite Dj. split; auto. exists []. exact Oj.
        -- exfalso. destruct (VTS x Kv) as (z & Kz & <-). destruct (PHI z Kz) as (Z & _). congruence.
        -- exfalso. destruct (COPL z Kz) as (_ & Z & _). congruence.
        -- exfalso. destruct (COPR z Kz) as (_ & Z & _). congruence.
        -- destruct (SAME x Lx Nx) as (Z1 & Z2 & Z3). rewrite Z1 in Ex. destruct (Ju x t Kx Ex) as (X & l & Y). rewrite LEN by auto. split; auto.
           destruct (Bsuf t L) as (p & ->). exists (p ++ l). rewrite Y. now rewrite app_assoc.
      * intros t K. destruct (LEN2 t K) as [->|[L K']].
        -- exists [], jv, cond. destruct JMP as (X & Y & _). auto.
        -- destruct (Tw t K') as (l & jv' & cd & X & Y & Z). destruct (Bsuf t L) as (p & Ep). exists (p ++ l), jv', cd.
           assert (In jv' (bops (s_blocks st) t)) as Kj by (rewrite X, in_app_iff; right; now left). destruct (Blt _ _ Kj) as (_ & X2 & X3 & _).
           destruct (SAME jv' X2 X3) as (-> & -> & _). split; auto. rewrite Ep, X. now rewrite app_assoc.
      * intros x t K Ex. destruct (CASES x t K) as [[-> ->]|[[-> Kv]|[[-> (z & Kz & ->)]|[[-> (z & Kz & ->)]|(L & Kx & Lx & Nx)]]]].
        -- exfalso. destruct JMP as (Z & _). congruence.
        -- destruct (VTS x Kv) as (z & Kz & <-). destruct (PHI z Kz) as (_ & Z & _). destruct (COPL z Kz) as (X1 & X2 & X3 & a & b & X4 & X5). destruct (COPR z Kz) as (Y1 & Y2 & Y3 & a' & b' & Y4 & Y5).
           rewrite X4 in Y4. injection Y4 as <- <-.
           exists n, (S n), (tl_ z), (tr_ z), (S (S n)), [], jv, cond. split; [auto|]. split; [rewrite Bn; now apply in_map|]. split; [rewrite Bsn; now apply in_map|]. split; [lia|]. split; [auto|].
           split; [rewrite Dj; auto|]. split; [auto|]. split; [apply JMP|].
           split; [apply (enters_left n (fun t => bdesc (s_blocks st5) t) (fun t => banc (s_blocks st5) t)); auto|]. split; [apply (enters_right n (fun t => bdesc (s_blocks st5) t) (fun t => banc (s_blocks st5) t)); auto|].
           destruct (ARN _ _ _ Kv X4) as (_ & _ & _ & _ & _ & _ & Er). rewrite (Rnew' (tl_ z)), (Rnew' (tr_ z)) by lia. rewrite X2, X5, Y2, Y5. cbn [map]. rewrite !sem_copy.
           destruct (SV _ Kv) as (_ & Lv & _). rewrite !Rold by lia. exact Er.
        -- exfalso. destruct (COPL z Kz) as (_ & Z & _). congruence.
        -- exfalso. destruct (COPR z Kz) as (_ & Z & _). congruence.
        -- destruct (SAME x Lx Nx) as (Z1 & Z2 & Z3). rewrite Z1 in Ex. pose proof (Np x t Ex (Ow x t Kx)) as No.
           destruct (Ph x t Kx Ex) as (L' & R & cl & cr & J & l & jv' & cd & X1 & X2 & X3 & X4 & X5 & X6 & X7 & X8 & X9 & X10 & X11).
           assert (LJ : J < n) by (destruct (Nat.lt_ge_cases J n) as [|G]; auto; destruct (OutD J G) as (Z & _); rewrite Z in X6; discriminate).
           destruct (Bsuf J LJ) as (p & Ep). 
           assert (In jv' (bops (s_blocks st) J)) as Kj by (rewrite X7, in_app_iff; right; now left). destruct (Blt _ _ Kj) as (_ & W2 & W3 & _). destruct (SAME jv' W2 W3) as (_ & W4 & _).
           destruct (Blt _ _ X2) as (LL & LL2 & _). destruct (Blt _ _ X3) as (LR & LR2 & _).
           exists L', R, cl, cr, J, (p ++ l), jv', cd. rewrite Z2, W4. split; [auto|]. split; [auto|]. split; [auto|]. split; [auto|]. split; [rewrite Ut' by lia; auto|].
           split; [now rewrite LEN|]. split; [rewrite Ep, X7; now rewrite app_assoc|]. split; [auto|]. split; [auto|]. split; [auto|].
           assert (cd < N) by (apply (cg_args _ CG jv'); fold g; rewrite X8; now left). rewrite !Rold by auto. exact X11.
      * intros x t K Npx. destruct (CASES x t K) as [[-> ->]|[[-> Kv]|[[-> (z & Kz & ->)]|[[-> (z & Kz & ->)]|(L & Kx & Lx & Nx)]]]].
        -- rewrite Rnew' by lia. f_equal. destruct JMP as (_ & -> & _). cbn [map]. rewrite Rold by lia. auto.
        -- exfalso. destruct (VTS x Kv) as (z & Kz & <-). apply Npx. apply (PHI z Kz).
        -- destruct (COPL z Kz) as (X1 & X2 & X3 & a & b & X4 & X5). rewrite Rnew' by lia. rewrite X2, X5. cbn [map]. destruct (ARN _ _ _ (TSV z Kz) X4) as (La & Lb & _). rewrite Rold by lia. auto.
        -- destruct (COPR z Kz) as (X1 & X2 & X3 & a & b & X4 & X5). rewrite Rnew' by lia. rewrite X2, X5. cbn [map]. destruct (ARN _ _ _ (TSV z Kz) X4) as (La & Lb & _). rewrite Rold by lia. auto.
        -- destruct (SAME x Lx Nx) as (Z1 & Z2 & Z3). rewrite Z1 in *. rewrite Z2, Rold by auto. rewrite (Va x t Kx Npx). f_equal. apply map_ext_in. intros a Ha. symmetry. apply Rold. apply (cg_args _ CG x a Ha).
    + rewrite G5. lia.
    + intros x t Px. destruct (KINDS x) as [(L & K)|[(z & Kz & ->)|[(z & Kz & ->)|[(z & Kz & ->)|[->|G]]]]].
      * destruct (SAME x L K) as (_ & _ & Z). rewrite Z in Px. apply Mono. apply (i_par _ _ _ _ _ _ _ _ _ I). exact Px.
      * destruct (PHI z Kz) as (_ & _ & Z). rewrite Z in Px. injection Px as <-. rewrite Bo, in_app_iff. left. apply -> in_rev. auto.
      * destruct (COPL z Kz) as (_ & _ & Z & _). rewrite Z in Px. injection Px as <-. rewrite Bn. now apply in_map.
      * destruct (COPR z Kz) as (_ & _ & Z & _). rewrite Z in Px. injection Px as <-. rewrite Bsn. now apply in_map.
      * destruct JMP as (_ & _ & Z). rewrite Z in Px. injection Px as <-. rewrite Oj. now left.
      * destruct (cg_fresh _ CG5 x) as [_ Z]; [lia|]. congruence.
    + intros x K. rewrite V5 in K. destruct K as [<-|K]; [destruct JMP as (_ & _ & ->); discriminate|]. apply Rvis in K. rewrite V3 in K. destruct K as [K|[K|K]].
      * pose proof (i_vis _ _ _ _ _ _ _ _ _ I x K) as Z. destruct (SAME x (LTn x Z) (NVS x Z)) as (_ & _ & ->). exact Z.
      * destruct (VTS x K) as (z & Kz & <-). destruct (PHI z Kz) as (_ & _ & ->). discriminate.
      * destruct (Rnew x K) as [Z|Z]; apply in_map_iff in Z; destruct Z as (z & <- & Kz); [destruct (COPL z Kz) as (_ & _ & -> & _)|destruct (COPR z Kz) as (_ & _ & -> & _)]; discriminate.
    + intros x L K. rewrite V5. right. apply Rvis. rewrite V3. destruct (in_dec Nat.eq_dec x vs) as [|Nx]; auto. left. apply (i_orig _ _ _ _ _ _ _ _ _ I); auto.
      fold g. destruct (SAME x ltac:(lia) Nx) as (_ & _ & <-). exact K.
    + intros x L K. destruct (in_dec Nat.eq_dec x vs) as [Kx|Nx]; [apply (SV x Kx)|]. apply (i_src _ _ _ _ _ _ _ _ _ I); auto. fold g. destruct (SAME x ltac:(lia) Nx) as (_ & _ & <-). exact K.
    + intros x L. destruct (in_dec Nat.eq_dec x vs) as [Kx|Nx].
      * right. destruct (SV x Kx) as (_ & _ & _ & X & _). destruct (VTS x Kx) as (z & Kz & <-). destruct (PHI z Kz) as (Y & _ & ->). split; [auto|]. split; [auto|discriminate].
      * destruct (SAME x ltac:(lia) Nx) as (-> & -> & ->). apply (i_op _ _ _ _ _ _ _ _ _ I x L).
    + intros x L. rewrite G5 in L. destruct (KINDS x) as [(Lx & K)|[(z & Kz & ->)|[(z & Kz & ->)|[(z & Kz & ->)|[->|G]]]]].
      * destruct (SAME x Lx K) as (-> & _ & ->). apply (i_new _ _ _ _ _ _ _ _ _ I x). fold g. fold N. lia.
      * destruct (SV _ (TSV z Kz)). lia.
      * destruct (COPL z Kz) as (_ & -> & -> & _). split; [discriminate|exact Logic.I].
      * destruct (COPR z Kz) as (_ & -> & -> & _). split; [discriminate|exact Logic.I].
      * destruct JMP as (-> & _ & ->). split; [discriminate|exact Logic.I].
      * lia.
    + intros a c Ha Ka. destruct (KINDS c) as [(Lx & K)|[(z & Kz & ->)|[(z & Kz & ->)|[(z & Kz & ->)|[->|G]]]]].
      * destruct (SAME c Lx K) as (_ & Z2 & ->). rewrite Z2 in Ha. pose proof (cg_args _ CG c a Ha) as La. fold N in La. destruct (in_dec Nat.eq_dec a vs) as [Kx|Nx].
        -- destruct (Rv a Kx) as (_ & _ & _ & Z). destruct (Z c Ha) as (t' & Z4 & _). fold g in Z4. congruence.
        -- apply (i_up _ _ _ _ _ _ _ _ _ I a c Ha). fold g. destruct (SAME a La Nx) as (_ & _ & <-). exact Ka.
      * destruct (PHI z Kz) as (_ & _ & ->). discriminate.
      * destruct (COPL z Kz) as (_ & _ & -> & _). discriminate.
      * destruct (COPR z Kz) as (_ & _ & -> & _). discriminate.
      * destruct JMP as (_ & _ & ->). discriminate.
      * destruct (cg_fresh _ CG5 c) as [Z _]; [lia|]. rewrite Z in Ha. contradiction.
    + intros x a Ex Ha. destruct (KINDS x) as [(Lx & K)|[(z & Kz & ->)|[(z & Kz & ->)|[(z & Kz & ->)|[->|G]]]]].
      * destruct (SAME x Lx K) as (Z1 & Z2 & _). rewrite Z1 in Ex. rewrite Z2 in Ha. pose proof (i_phi _ _ _ _ _ _ _ _ _ I x a Ex Ha) as Z.
        destruct (SAME a (LTn a Z) (NVS a Z)) as (_ & _ & ->). exact Z.
      * destruct (PHI z Kz) as (_ & Z & _). rewrite Z in Ha. destruct Ha as [<-|[<-|[]]]; [destruct (COPL z Kz) as (_ & _ & -> & _)|destruct (COPR z Kz) as (_ & _ & -> & _)]; discriminate.
      * destruct (COPL z Kz) as (_ & Z & _). congruence.
      * destruct (COPR z Kz) as (_ & Z & _). congruence.
      * destruct JMP as (Z & _). congruence.
      * destruct (cg_fresh _ CG5 x) as [Z _]; [lia|]. rewrite Z in Ha. contradiction.
    + intros x L. rewrite Rold by lia. apply (i_r _ _ _ _ _ _ _ _ _ I x L).
    + intros B key Hx. destruct (i_opt _ _ _ _ _ _ _ _ _ I B key Hx) as (LB & J & l & jv' & cq & X3 & X4 & X5 & X6 & X7 & X8 & X9). fold g in X5, X6, X7, X8.
      assert (LJ : J < n) by (destruct (Nat.lt_ge_cases J n) as [|G]; auto; destruct (OutD J G) as (Z & _); rewrite Z in X3; discriminate).
      split; [fold n in LB; lia|].
      destruct (Bsuf J LJ) as (p & Ep). exists J, (p ++ l), jv', cq.
      assert (In jv' (bops (s_blocks st) J)) as Kj by (rewrite X4, in_app_iff; right; now left). destruct (Blt _ _ Kj) as (_ & W2 & W3 & _). destruct (SAME jv' W2 W3) as (_ & W4 & _).
      assert (Pq : parent g cq <> 0) by congruence. destruct (SAME cq (LTn cq Pq) (NVS cq Pq)) as (Y1 & Y2 & Y3).
      rewrite W4, Y1, Y2, Y3, LEN by auto. split; [auto|]. split; [rewrite Ep, X4; now rewrite app_assoc|].
      split; [auto|]. split; [auto|]. split; [auto|]. split; [auto|].
      apply (splits_diamond n (fun t => bdesc (s_blocks st) t) (fun t => banc (s_blocks st) t) (fun t => bdesc (s_blocks st5) t) (fun t => banc (s_blocks st5) t) e o); auto. lia.
    + intros t K. destruct (Nat.eq_dec t (S (S n))) as [->|N1]; [left; rewrite Oj; discriminate|].
      assert (Nt : ts <> []) by (intros ->; cbn in Rvs; congruence).
      destruct (Nat.eq_dec t n) as [->|N2]; [left; rewrite Bn; destruct ts; [contradiction|discriminate]|].
      destruct (Nat.eq_dec t (S n)) as [->|N3]; [left; rewrite Bsn; destruct ts; [contradiction|discriminate]|].
      destruct (Nat.lt_ge_cases t n) as [L|G].
      * rewrite LEN in K by auto. destruct (i_one _ _ _ _ _ _ _ _ _ I t K) as [X|X]; auto. left. destruct (Bsuf t L) as (p & ->). intros Z. apply app_eq_nil in Z. tauto.
      * rewrite nth_block_out in K by lia. discriminate.
    + intros a c Ha La. destruct (KINDS c) as [(Lx & K)|[(z & Kz & ->)|[(z & Kz & ->)|[(z & Kz & ->)|[->|G]]]]].
      * destruct (SAME c Lx K) as (_ & Z & _). rewrite Z in Ha. apply (i_rd _ _ _ _ _ _ _ _ _ I a c Ha La).
      * destruct (PHI z Kz) as (_ & Z & _). rewrite Z in Ha. destruct (COPL z Kz) as (X & _). destruct (COPR z Kz) as (Y & _). destruct Ha as [<-|[<-|[]]]; lia.
      * destruct (COPL z Kz) as (_ & _ & _ & a' & b' & X & Y). rewrite Y in Ha. destruct Ha as [<-|[]]. apply (i_rd _ _ _ _ _ _ _ _ _ I a' (tv z)); auto. fold g. rewrite X. right. now left.
      * destruct (COPR z Kz) as (_ & _ & _ & a' & b' & X & Y). rewrite Y in Ha. destruct Ha as [<-|[]]. apply (i_rd _ _ _ _ _ _ _ _ _ I b' (tv z)); auto. fold g. rewrite X. right. right. now left.
      * destruct JMP as (_ & Z & _). rewrite Z in Ha. destruct Ha as [<-|[]]. apply (i_rd _ _ _ _ _ _ _ _ _ I cond v0); auto. fold g. rewrite Ea0. now left.
      * destruct (cg_fresh _ CG5 c) as [Z _]; [lia|]. rewrite Z in Ha. contradiction.
    + intros x Px. destruct (KINDS x) as [(Lx & K)|[(z & Kz & ->)|[(z & Kz & ->)|[(z & Kz & ->)|[->|G]]]]].
      * destruct (SAME x Lx K) as (Z1 & Z2 & Z3). rewrite Z1, Z2. rewrite Z3 in Px. apply (i_ar _ _ _ _ _ _ _ _ _ I x Px).
      * destruct (PHI z Kz) as (Z1 & Z2 & _). rewrite Z1, Z2. reflexivity.
      * destruct (COPL z Kz) as (_ & Z1 & _ & a' & b' & X & Y). rewrite Z1, Y. reflexivity.
      * destruct (COPR z Kz) as (_ & Z1 & _ & a' & b' & X & Y). rewrite Z1, Y. reflexivity.
      * destruct JMP as (Z1 & Z2 & _). rewrite Z1, Z2. reflexivity.
      * destruct (cg_fresh _ CG5 x) as [_ Z]; [lia|]. congruence.
    + assert (ARG : forall w a, In w vs -> In a (args g w) -> a < N0 -> ~ In a vs -> op_of (s_g st5) a <> OJump /\
         forall key, op_of (s_g st5) a = OOutReq key -> N0 <= a -> False).
      { intros w a Kw Ka La Na. destruct (SAME a ltac:(lia) Na) as (-> & _). split; [apply (i_ctl _ _ _ _ _ _ _ _ _ I a w Ka)|]. intros; lia. }
      intros a c Ha. destruct (KINDS c) as [(Lx & K)|[(z & Kz & ->)|[(z & Kz & ->)|[(z & Kz & ->)|[->|G]]]]].
      * destruct (SAME c Lx K) as (Z1 & Z2 & Z3). rewrite Z2 in Ha. rewrite Z1, Z3. pose proof (cg_args _ CG c a Ha) as La. fold N in La.
        destruct (in_dec Nat.eq_dec a vs) as [Kx|Nx].
        -- destruct (VTS a Kx) as (z & Kz & <-). destruct (PHI z Kz) as (-> & _). split; [discriminate|intros; discriminate].
        -- destruct (SAME a La Nx) as (-> & _ & ->). apply (i_ctl _ _ _ _ _ _ _ _ _ I a c Ha).
      * destruct (PHI z Kz) as (_ & Z & _). rewrite Z in Ha. destruct Ha as [<-|[<-|[]]]; [destruct (COPL z Kz) as (_ & -> & _)|destruct (COPR z Kz) as (_ & -> & _)]; split; discriminate.
      * destruct (COPL z Kz) as (_ & _ & _ & a' & b' & X & Y). rewrite Y in Ha. destruct Ha as [<-|[]]. destruct (ARN _ _ _ (TSV z Kz) X) as (La & Lb & _ & _ & Na & Nb & _).
        destruct (ARG (tv z) a') as [W1 W2]; auto; [rewrite X; cbn; auto|]. split; auto. intros key E1 E2. destruct (W2 key E1 E2).
      * destruct (COPR z Kz) as (_ & _ & _ & a' & b' & X & Y). rewrite Y in Ha. destruct Ha as [<-|[]]. destruct (ARN _ _ _ (TSV z Kz) X) as (La & Lb & _ & _ & Na & Nb & _).
        destruct (ARG (tv z) b') as [W1 W2]; auto; [rewrite X; cbn; auto|]. split; auto. intros key E1 E2. destruct (W2 key E1 E2).
      * destruct JMP as (_ & Z & _). rewrite Z in Ha. destruct Ha as [<-|[]].
        destruct (ARG v0 cond) as [W1 W2]; auto; [rewrite Ea0; now left|tauto|]. split; auto. intros key E1 E2. destruct (W2 key E1 E2).
      * destruct (cg_fresh _ CG5 c) as [Z _]; [lia|]. rewrite Z in Ha. contradiction.
    + intros x J key Lx Ex Px. destruct (KINDS x) as [(Lx' & K)|[(z & Kz & ->)|[(z & Kz & ->)|[(z & Kz & ->)|[->|G]]]]].
      * destruct (SAME x Lx' K) as (Z1 & _ & Z3). rewrite Z1 in Ex. rewrite Z3 in Px. destruct (i_req _ _ _ _ _ _ _ _ _ I x J key Lx Ex Px) as (l & q & B & X1 & X2 & X3).
        assert (LJ : J < n) by (destruct (Nat.lt_ge_cases J n) as [|G]; auto; destruct (OutD J G) as (Z & _); rewrite Z in X1; discriminate).
        exists (redir n o l), (redir n o q), B. rewrite Dt' by lia. rewrite X1. split; [reflexivity|]. split; auto.
        assert (Lq : q < n) by (apply (sh_range _ _ _ _ Sh J q); rewrite X1; cbn; auto).
        unfold redir. destruct (Nat.eqb_spec q o) as [->|Nq]; [now rewrite Uj'|]. rewrite Ut' by lia. exact X2.
      * destruct (PHI z Kz) as (Z & _). congruence.
      * destruct (COPL z Kz) as (_ & Z & _). congruence.
      * destruct (COPR z Kz) as (_ & Z & _). congruence.
      * destruct JMP as (Z & _). congruence.
      * destruct (cg_fresh _ CG5 x) as [_ Z]; [lia|]. congruence.
  - split; [rewrite G5; fold g; fold N; lia|]. split; [fold n; lia|]. split; [exact Rold|]. split; [|split; [|exact Bsuf]].
    + intros x K. fold g in K. destruct (SAME x (LTn x K) (NVS x K)) as (_ & _ & Z). exact Z.
    + intros x t Ex Px Lt Nt. fold g. destruct (KINDS x) as [(Lx & K)|[(z & Kz & ->)|[(z & Kz & ->)|[(z & Kz & ->)|[->|G]]]]].
      * destruct (SAME x Lx K) as (Z1 & _ & Z3). split; congruence.
      * destruct (PHI z Kz) as (_ & _ & Z). congruence.
      * destruct (COPL z Kz) as (_ & Z & _). congruence.
      * destruct (COPR z Kz) as (_ & Z & _). congruence.
      * destruct JMP as (Z & _). congruence.
      * destruct (cg_fresh _ CG5 x) as [_ Z]; [lia|]. congruence.
  - intros x Kx. destruct (Ql x Kx) as [[]|(v & K & Ha)]. destruct (SV v K) as (Iv & _ & _ & _ & a & b & Ea & E0' & _). rewrite Ea, <- E0' in Ha. exact (Ok2 v x Iv Ha).
  - intros x Kx. destruct (Qr x Kx) as [[]|(v & K & Ha)]. destruct (SV v K) as (Iv & _ & _ & _ & a & b & Ea & E0' & _). rewrite Ea, <- E0' in Ha. exact (Ok2 v x Iv Ha).
  - intros x t Ex Px. destruct (KINDS x) as [(Lx & K)|[(z & Kz & ->)|[(z & Kz & ->)|[(z & Kz & ->)|[->|G]]]]].
    + destruct (SAME x Lx K) as (Z1 & _ & Z3). rewrite Z3 in Px. apply (i_par _ _ _ _ _ _ _ _ _ I) in Px. now apply in_block_lt in Px.
    + destruct (PHI z Kz) as (_ & _ & Z). rewrite Z in Px. injection Px as <-. auto.
    + destruct (COPL z Kz) as (_ & Z & _). congruence.
    + destruct (COPR z Kz) as (_ & Z & _). congruence.
    + destruct JMP as (Z & _). congruence.
    + destruct (cg_fresh _ CG5 x) as [_ Z]; [lia|]. congruence.
Qed.
End Branch.
