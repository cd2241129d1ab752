(** Programs whose selects became branches can be written as statements. *)
From Coq Require Import String List Arith ZArith Bool Lia.
From Verif Require Import Outcome NumProofs IrModel IrSpec IrProofs IrProps CfgModel CfgSpec MergeProofs CountProofs ConvModel ConvSpec ConvShape ConvGroup ConvInv ConvConvert ConvCopies ConvRun ConvProofs ConvProps AstModel AstSpec StmtModel StmtSpec StmtStore StmtRegion StmtRun.
Import ListNotations.
Open Scope nat_scope.
Open Scope list_scope.

(** Where there are two ways to go on, there are the two parts of a branch. *)
Lemma region_at next b k bs : region next b k bs -> single_entry next b bs -> forall L x y, In L bs -> next L = [x; y] ->
  exists j m bl br bj, region next x (Some j) bl /\ region next y (Some j) br /\ region next j m bj /\ In j bj /\
    NoDup (L :: bl ++ br ++ bj) /\ (forall z, m = Some z -> ~ In z (L :: bl ++ br ++ bj)) /\ single_entry next L (L :: bl ++ br ++ bj).
Proof.
  induction 1 as [m|b E|b z k bs E H IH N Nk|b l r j k bl br bj E Hl IHl Hr IHr Hj IHj Inj ND Nm]; intros SE L x y HL EL.
  - contradiction.
  - destruct HL as [<-|[]]. congruence.
  - destruct HL as [<-|HL]; [congruence|]. apply IH; auto. now apply (entry_step next b z k bs).
  - destruct HL as [<-|HL].
    + rewrite E in EL. injection EL as <- <-. exists j, k, bl, br, bj. repeat (split; auto).
    + rewrite !in_app_iff in HL. destruct HL as [HL|[HL|HL]].
      * apply IHl; auto. now apply (entry_left next b l r j k bl br bj).
      * apply IHr; auto. now apply (entry_right next b l r j k bl br bj).
      * apply IHj; auto. now apply (entry_join next b l r j k bl br bj).
Qed.

Section Shape.
Variables (n : nat) (down up : nat -> list nat) (e : nat).
Hypothesis H : shape n down up e.

Lemma reach_up a t q : reach down a t -> upath up a q -> exists p, upath up t (p ++ q).
Proof.
  intros R. revert q. induction R as [a|a x t Hx R IH]; intros q Hq; [now exists []|].
  destruct (IH (x :: q)) as (p & Hp).
  - apply up_step with a; auto. now apply (sh_edge _ _ _ _ H).
  - exists (p ++ [x]). now rewrite <- app_assoc.
Qed.
Lemma has_upath t : t < n -> exists p, upath up t p.
Proof.
  intros L. destruct (sh_region _ _ _ _ H) as (bs & R & Ha). apply Ha in L. destruct (reach_up e t [e]) as (p & Hp); eauto.
  - now apply (region_from down e None bs).
  - apply up_root. apply (sh_root _ _ _ _ H).
Qed.
Lemma upath_nodup t p : upath up t p -> NoDup p.
Proof.
  destruct (shape_acyclic _ _ _ _ H) as [rank Hr]. intros Hp.
  assert (K : forall x, In x p -> rank t <= rank x).
  { induction Hp as [t E|t a p Ha Hp IH]; intros x Hx; [destruct Hx as [<-|[]]; auto|]. destruct Hx as [<-|Hx]; auto.
    apply (sh_edge _ _ _ _ H) in Ha. apply Hr in Ha. specialize (IH x Hx). lia. }
  clear K. induction Hp as [t E|t a p Ha Hp IH]; [repeat constructor; auto|]. constructor; auto. intros Hx.
  assert (K : forall t p, upath up t p -> forall x, In x p -> rank t <= rank x).
  { clear -Hr H. intros t p Hp. induction Hp as [t E|t a p Ha Hp IH]; intros x Hx; [destruct Hx as [<-|[]]; auto|]. destruct Hx as [<-|Hx]; auto.
    apply (sh_edge _ _ _ _ H) in Ha. apply Hr in Ha. specialize (IH x Hx). lia. }
  apply (K a p Hp) in Hx. apply (sh_edge _ _ _ _ H) in Ha. apply Hr in Ha. lia.
Qed.
Lemma via_once x y j p : NoDup p -> via x j p -> via y j p -> x = y.
Proof.
  intros ND (p1 & p2 & E1) (q1 & q2 & E2). assert (Z : p1 ++ [x] = q1 ++ [y]); [|now apply app_inj_tail in Z].
  assert (F1 : p = (p1 ++ [x]) ++ j :: p2) by (rewrite E1, <- app_assoc; reflexivity).
  assert (F2 : p = (q1 ++ [y]) ++ j :: q2) by (rewrite E2, <- app_assoc; reflexivity).
  apply (split_unique j (p1 ++ [x]) (q1 ++ [y]) p2 q2); [| |exact (eq_trans (eq_sym F1) F2)].
  - rewrite F1 in ND. apply NoDup_remove_2 in ND. rewrite in_app_iff in ND. tauto.
  - rewrite F2 in ND. apply NoDup_remove_2 in ND. rewrite in_app_iff in ND. tauto.
Qed.
Lemma two_sides J i i' L R : L < n -> i <> i' -> reach down L R -> enters down up J i L -> enters down up J i' R -> False.
Proof.
  intros LL Ni Re EL ER. destruct (has_upath L LL) as (q & Hq). destruct (reach_up L R q Re Hq) as (p & Hp).
  destruct (EL q Hq) as (x & X1 & X2). destruct (ER _ Hp) as (y & Y1 & Y2).
  assert (x = y). { apply (via_once x y J (p ++ q)); auto; [now apply (upath_nodup R)|]. destruct X2 as (q1 & q2 & ->). exists (p ++ q1), q2. now rewrite <- app_assoc. }
  subst y. apply Ni. apply (proj1 (NoDup_nth_error (down J)) (sh_down _ _ _ _ H J)); [apply nth_error_Some; congruence|congruence].
Qed.
Lemma below_branch L R o : In o (down L) -> In o (down R) -> L <> R -> length (down L) <> 1 -> reach down L R.
Proof.
  intros HL HR NLR Len. destruct (sh_region _ _ _ _ H) as (bs & Rg & Ha). pose proof (sh_range _ _ _ _ H L o HL) as [LL Lo].
  pose proof (region_two down e None bs Rg L (proj2 (Ha L) LL)) as L2.
  destruct (down L) as [|x [|y [|z q]]] eqn:EL; cbn in L2, Len; try lia; [contradiction|].
  destruct (region_at down e None bs Rg) with (L := L) (x := x) (y := y) as (j & m & bl & br & bj & Hx & Hy & Hj & Inj & ND & Nm & SE); auto.
  { intros a t _ K. left. apply Ha. apply (sh_range _ _ _ _ H a t K). } { now apply Ha. }
  pose proof (parts L bl br bj ND) as ((B1 & B2 & B3) & P1 & P2 & P3).
  assert (NC : forall a t, In t (down a) -> reach down t a -> False).
  { destruct (shape_acyclic _ _ _ _ H) as [rank Hr]. intros a t K Re. apply (reach_rank down rank Hr) in Re. apply Hr in K. lia. }
  assert (Io : In o (L :: bl ++ br ++ bj)).
  { right. rewrite !in_app_iff. destruct HL as [<-|[<-|[]]]; [destruct (head_left down x j bl Hx) as [|[-> _]]|destruct (head_right down y j br Hy) as [|[-> _]]]; auto. }
  assert (No : o <> L) by (intros ->; apply (NC L L); [rewrite EL; auto|constructor]).
  destruct (inside_of down L x y j m bl br bj Hx Hy Hj Inj Nm SE R o Io No HR) as [->|[[Ka _]|[[Ka _]|[Ka Kb]]]]; [congruence| | |].
  - apply reach_next with x; [rewrite EL; now left|]. now apply (region_from down x (Some j) bl).
  - apply reach_next with y; [rewrite EL; right; now left|]. now apply (region_from down y (Some j) br).
  - assert (o = j) as ->.
    { destruct HL as [<-|[<-|[]]]; [destruct (head_left down x j bl Hx) as [K|[K _]]|destruct (head_right down y j br Hy) as [K|[K _]]]; auto; exfalso; eauto. }
    exfalso. apply (NC R j HR). now apply (region_from down j m bj).
Qed.
Lemma only_step J L R o : up o = [L; R] -> L <> R -> enters down up J 0 L -> enters down up J 1 R -> down L = [o] /\ down R = [o].
Proof.
  intros Eo NLR EL ER.
  assert (HL : In o (down L)) by (apply (sh_edge _ _ _ _ H); rewrite Eo; now left).
  assert (HR : In o (down R)) by (apply (sh_edge _ _ _ _ H); rewrite Eo; right; now left).
  pose proof (proj1 (sh_range _ _ _ _ H L o HL)) as LL. pose proof (proj1 (sh_range _ _ _ _ H R o HR)) as LR.
  assert (One : forall l : list nat, In o l -> length l = 1 -> l = [o]) by (intros [|a [|b q]] K Z; try discriminate; destruct K as [<-|[]]; auto).
  split; apply One; auto.
  - destruct (Nat.eq_dec (length (down L)) 1) as [|N]; auto. exfalso. apply (two_sides J 0 1 L R); auto. now apply (below_branch L R o).
  - destruct (Nat.eq_dec (length (down R)) 1) as [|N]; auto. exfalso. apply (two_sides J 1 0 R L); auto. apply (below_branch R L o); auto.
Qed.
End Shape.

Lemma converted_branching T g ops fuel ct c : program T g 0 ops -> outputs_ok g ops -> returns_once g ops -> convert fuel ct g = Ok c ->
  exists b bs, first_block c = Ok b /\ branching c b bs.
Proof.
  intros P H (NQ & One) E.
  destruct (C33_structured T g ops fuel ct c P H E) as (b & bs & Eb & R & Ha & Ac & Ed & Jm).
  destruct (C33_defined T g ops fuel ct c P H E) as (b' & Eb' & Df). assert (b' = b) by congruence. subst b'.
  exists b, bs. split; auto.
  set (A := int_algebra 0 0 false). set (S := int_selecting 0 0 false).
  destruct (consistent_exists (T := T) A g 0 ops [] (fun _ => d0 A)) as (r0 & C0); auto; [intros v []|]. cbn [app] in C0.
  destruct (converted A S T g ops r0 P C0 H fuel ct c E) as (r & e & opts & St & Pl & _).
  assert (e = b) by (pose proof (entry_first A S g fuel ct c E r e opts St); congruence). subst e.
  pose proof (s_core _ _ _ _ _ _ _ _ _ _ _ St) as CO. pose proof (c_shape _ _ _ _ _ _ _ _ _ CO) as Sh.
  constructor; auto.
  - apply (sh_root _ _ _ _ Sh).
  - apply (fun t v => c_own _ _ _ _ _ _ _ _ _ CO v t).
  - apply (c_nodup _ _ _ _ _ _ _ _ _ CO).
  - intros v w. apply (def_use_in _ (c_use _ _ _ _ _ _ _ _ _ CO)).
  - intros t v a Kv Np Ka. apply (proj1 (Df t v Kv) Np a Ka).
  - intros t v Kv Ov. destruct (c_phi _ _ _ _ _ _ _ _ _ CO v t Kv Ov) as (L & R' & cl & cr & J & l & jv & cd & Y1 & Y2 & Y3 & Y4 & Y5 & Y6 & Y7 & Y8 & Y9 & Y10 & _).
    destruct (only_step _ _ _ _ Sh J L R' t Y5 Y4 Y9 Y10) as [D1 D2]. exists L, R', cl, cr. repeat (split; auto).
  - intros v w Ow Hv. split; [apply (s_phi _ _ _ _ _ _ _ _ _ _ _ St v w Ow Hv)|].
    destruct (s_ctl _ _ _ _ _ _ _ _ _ _ _ St v w Hv) as (X1 & X2 & X3).
    destruct (op_of (c_vals c) v) as [| | | | | | | | | | | | | | | |] eqn:Ov; auto; try congruence.
    exfalso. destruct (Nat.lt_ge_cases v (g_next g)) as [L|L].
    + destruct (s_old _ _ _ _ _ _ _ _ _ _ _ St v w _ Hv L Ov) as (Y & w0 & Z). apply (NQ v _ (proj2 (operand_in T g ops P w0 v Z)) Y).
    + destruct (X3 _ eq_refl L) as [Z _]. congruence.
  - intros t v x key Kv Ov Hx Ox. destruct (s_ctl _ _ _ _ _ _ _ _ _ _ _ St x v Hx) as (X1 & X2 & X3).
    assert (Lx : g_next g <= x).
    { destruct (Nat.lt_ge_cases x (g_next g)) as [L|]; auto. exfalso. destruct (s_old _ _ _ _ _ _ _ _ _ _ _ St x v key Hx L Ox) as (Y & w0 & Z).
      apply (NQ x key); auto. apply (operand_in T g ops P w0 x Z). }
    destruct (X3 key Ox Lx) as [_ Px]. rewrite (c_own _ _ _ _ _ _ _ _ _ CO v t Kv) in Px.
    apply (s_jreq _ _ _ _ _ _ _ _ _ _ _ St x t key Lx Ox). congruence.
  - intros t v key Kv Ov. pose proof (s_ar _ _ _ _ _ _ _ _ _ _ _ St v t Kv) as Ar. rewrite Ov in Ar. destruct (args (c_vals c) v); [auto|discriminate].
  - intros t v key l1 l2 El Ov. assert (Kv : In v (ops_of c t)) by (rewrite El, in_app_iff; right; now left).
    destruct (s_only _ _ _ _ _ _ _ _ _ _ _ St v t 2 key Kv Ov) as [Lv Gv]. destruct (s_req _ _ _ _ _ _ _ _ _ _ _ St v 2 key Lv Gv) as (_ & t' & Kt & Z & _).
    assert (t = 0). { rewrite <- (Z ltac:(discriminate)). pose proof (c_own _ _ _ _ _ _ _ _ _ CO v t Kv). pose proof (c_own _ _ _ _ _ _ _ _ _ CO v t' Kt). congruence. } subst t.
    assert (IN : forall w k, w < g_next g -> op_of g w = OSave 2 k -> In w ops) by (intros w k Lw Ew; apply (proj2 H w 2 k Lw Ew)).
    destruct (s_ret _ _ _ _ _ _ _ _ _ _ _ St v key Lv Gv) as (l & El'). { intros w k' Lw Ew. apply (One w v k' key); eauto. }
    assert (l2 = []) as ->; [|intros w u k []].
    pose proof (c_nodup _ _ _ _ _ _ _ _ _ CO 0) as ND. rewrite El' in El. 
    assert (Q : l = l1). { rewrite El' in ND. apply (split_unique v l l1 [] l2); auto.
      - apply NoDup_remove_2 in ND. rewrite app_nil_r in ND. exact ND.
      - rewrite El in ND. apply NoDup_remove_2 in ND. rewrite in_app_iff in ND. tauto. }
    rewrite Q in El. apply app_inv_head in El. injection El as El; auto.
Qed.

(** They have statements if the operations of the program with selects do. *)
Lemma converted_writable T g ops fuel ct c N outs : program T g 0 ops -> outputs_ok g ops -> returns_once g ops -> convert fuel ct g = Ok c ->
  (forall v, In v ops -> has_form N outs g v /\ forall i, op_of g v <> OGet i) -> writable N outs c.
Proof.
  intros P H (NQ & One) E F.
  set (A := int_algebra 0 0 false). set (S := int_selecting 0 0 false).
  destruct (consistent_exists (T := T) A g 0 ops [] (fun _ => d0 A)) as (r0 & C0); auto; [intros v []|]. cbn [app] in C0.
  destruct (converted A S T g ops r0 P C0 H fuel ct c E) as (r & e & opts & St & Pl & _ & Kin).
  pose proof (s_core _ _ _ _ _ _ _ _ _ _ _ St) as CO. pose proof (c_shape _ _ _ _ _ _ _ _ _ CO) as Sh.
  constructor.
  - intros t v Kv. pose proof (s_ar _ _ _ _ _ _ _ _ _ _ _ St v t Kv) as Ar.
    destruct (s_keep _ _ _ _ _ _ _ _ _ _ _ St v t Kv) as [(L & Eo & El)|M].
    + destruct (F v (Kin v t Kv L)) as [X Y]. unfold has_form in *. rewrite Eo, El. destruct (op_of g v) eqn:Ev; auto. exfalso. now apply (Y i).
    + unfold has_form. destruct (op_of (c_vals c) v) as [| | | | | | | | | | | | | |key| |] eqn:Ev; cbn in M; try contradiction; auto.
      all: try (cbn in Ar; apply Nat.eqb_eq in Ar; exact Ar).
      destruct M as (B & M). destruct (s_key _ _ _ _ _ _ _ _ _ _ _ St B key M) as (w & Lw & Ew).
      destruct (proj2 H w 0 key Lw Ew) as (Kw & _). destruct (F w Kw) as [X _]. unfold has_form in X. rewrite Ew in X. exists ArgScalar. apply X.
  - intros t v a Kv Ha. destruct (s_ctl _ _ _ _ _ _ _ _ _ _ _ St a v Ha) as (X1 & X2 & X3). split; auto. split; auto. intros key Ea.
    destruct (Nat.lt_ge_cases a (g_next g)) as [L|L]; [|apply (X3 key Ea L)].
    exfalso. destruct (s_old _ _ _ _ _ _ _ _ _ _ _ St a v key Ha L Ea) as (Y & w0 & Z). apply (NQ a key); auto. apply (operand_in T g ops P w0 a Z).
  - intros t v key Kv Ov.
    destruct (s_only _ _ _ _ _ _ _ _ _ _ _ St v t 2 key Kv Ov) as [Lv Gv]. destruct (s_req _ _ _ _ _ _ _ _ _ _ _ St v 2 key Lv Gv) as (_ & t' & Kt & Z & _).
    assert (t = 0). { rewrite <- (Z ltac:(discriminate)). pose proof (c_own _ _ _ _ _ _ _ _ _ CO v t Kv). pose proof (c_own _ _ _ _ _ _ _ _ _ CO v t' Kt). congruence. } subst t.
    apply (sh_zero _ _ _ _ Sh).
Qed.
