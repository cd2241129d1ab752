(** The statements of a function do what its blocks do. *)
From Coq Require Import String List Arith ZArith Bool Lia.
From Verif Require Import Outcome NumProofs IrModel IrSpec CfgModel CfgSpec MergeProofs CountProofs ConvSpec AstModel AstSpec AstTree StmtModel StmtSpec StmtStore StmtRegion StmtRun StmtBlock.
Import ListNotations.
Open Scope nat_scope.
Open Scope list_scope.

Section Execution.
Variable A : algebra.
Variable Q : selecting A.
Variable M : meaning (D A).
Variable N : names.
Variable outs : string -> option arg_type.
Variable outer : string -> bool.
Variable c : cfg.
Variables (e : nat) (all : list nat).
Hypothesis BR : branching c e all.
Hypothesis EX : expresses A M N c.
Hypothesis SP : separate N outer c.
Variable Ev : env A.
Notation g := (c_vals c).
Notation next := (desc c).
Notation vn := (variable_name (n_width N)).
Notation r := (StmtRun.r A Ev).
Notation run_all := (do_all A Q M outer).
Notation carried := (carried A N c Ev).
Notation avail := (avail c).

(** Between statements: the blocks of [U] were executed and their variables are in scope, those of [L] are still to come
    and the variables of their phi functions are in scope. *)
Record ctx (U L : list nat) (d : list name) (st : store A) : Prop := {
  cx_temp : forall v, avail U [] v -> declared d v = true -> look A st (vn v) = Some (Some (r v));
  cx_phi : forall v, avail U [] v -> declares_phi c v = true -> declared d v = true;
  cx_keys : forall s, In s (keys st) -> exists v u, s = vn v /\ In v (ops_of c u) /\ (In u U \/ (In u L /\ op_of g v = OPhi));
  cx_nodup : NoDup (keys st);
  cx_decl : forall m p, In m L -> In p (ops_of c m) -> declares_phi c p = true -> declared d p = true;
  cx_pend : forall m p, In m L -> In p (ops_of c m) -> declares_phi c p = true -> In (vn p) (keys st);
  cx_val : forall u v, In u U -> In v (ops_of c u) -> op_of g v <> OPhi -> r v = sem A (op_of g v) (map r (args g v));
  cx_closed : forall u v a, In u U -> In v (ops_of c u) -> op_of g v <> OPhi -> In a (args g v) -> exists u', In u' U /\ In a (ops_of c u');
  cx_apart : forall m, In m L -> ~ In m U }.
Definition dominated (U : list nat) (b : nat) : Prop := forall u, ~ In u U -> u <> b -> avoids next u e b.
Definition clean (bs : list nat) (d : list name) : Prop := forall a v, In a bs -> In v (ops_of c a) -> declared d v = true -> declares_phi c v = true.

Lemma avail_in U v : avail U [] v <-> exists u, In u U /\ In v (ops_of c u).
Proof. unfold StmtBlock.avail. cbn. tauto. Qed.
Lemma ctx_outer U L d st : ctx U L d st -> forall s, outer s = true -> look A st s = None.
Proof. intros X. apply (named_outer A N outer c SP). intros s I. destruct (cx_keys _ _ _ _ X s I) as (v & u & E & Kv & _). eauto. Qed.
Lemma ctx_cons U L d st x : ctx U L d st -> In x L \/ (~ has_phi c x /\ ~ In x U) -> ctx U (x :: L) d st.
Proof.
  intros X H. assert (G : forall m p, In m (x :: L) -> In p (ops_of c m) -> declares_phi c p = true -> In m L).
  { intros m p [<-|Hm] Kp Dp; auto. destruct H as [|[H _]]; auto. exfalso. apply H. exists p. split; auto. now apply declares_is_phi. }
  split; try apply X.
  - intros s I. destruct (cx_keys _ _ _ _ X s I) as (v & u & E & Kv & D). exists v, u. split; auto. split; auto. cbn. tauto.
  - intros m p Hm Kp Dp. apply (cx_decl _ _ _ _ X m p); eauto.
  - intros m p Hm Kp Dp. apply (cx_pend _ _ _ _ X m p); eauto.
  - intros m [<-|Hm]; [|now apply (cx_apart _ _ _ _ X)]. destruct H as [H|[_ H]]; auto. now apply (cx_apart _ _ _ _ X).
Qed.
Lemma ctx_more U L d d' st : ctx U L d st -> (forall v, declared d v = true -> declared d' v = true) ->
  (forall v, declared d' v = true -> declared d v = true \/ exists u, ~ In u U /\ In v (ops_of c u)) -> ctx U L d' st.
Proof.
  intros X Mo Nw. split; try apply X.
  - intros v Lv Dv. apply (cx_temp _ _ _ _ X); auto. destruct (Nw v Dv) as [|(u & Nu & Kv)]; auto. apply avail_in in Lv. destruct Lv as (u' & Hu' & Kv').
    rewrite (block_unique c e all BR u' u v Kv' Kv) in Hu'. contradiction.
  - intros v Lv Dv. apply Mo. now apply (cx_phi _ _ _ _ X).
  - intros m p Hm Kp Dp. apply Mo. now apply (cx_decl _ _ _ _ X m p).
Qed.
Lemma ctx_store U L d st st' : ctx U L d st -> keys st' = keys st -> (forall v, avail U [] v -> declared d v = true -> look A st' (vn v) = Some (Some (r v))) -> ctx U L d st'.
Proof.
  intros X K T. split; try apply X; try rewrite K; try apply X. exact T.
Qed.
Lemma same_ext (st st' : store A) : NoDup (keys st) -> keys st' = keys st -> extends_store st st'.
Proof. intros D K. exists [], st'. split; auto. split; auto. now rewrite K. Qed.

(** Declaring the variables of the phi functions of a block. *)
Lemma declare_run j : forall l d st U L, (forall p, In p l -> In p (ops_of c j)) -> NoDup l -> (forall p, In p l -> ~ In (vn p) (keys st)) ->
  ctx U L d st ->
  exists st', run_all (map (fun p => SDeclare (vn p) None) l) st = Some (false, st', []) /\ extends_store st st' /\
    keys st' = rev (map vn l) ++ keys st /\ (forall s, In s (keys st) -> look A st' s = look A st s).
Proof.
  intros l d st U L Hl ND Fr X. pose proof (cx_nodup _ _ _ _ X) as NK. pose proof (ctx_outer _ _ _ _ X) as _. clear X d U L.
  revert st Fr NK. induction l as [|p l IH]; intros st Fr NK; cbn [map].
  - exists st. split; [reflexivity|]. split; [now apply ext_refl|]. auto.
  - inversion ND as [|? ? N1 N2]; subst. assert (Np : ~ In (vn p) (keys st)) by (apply Fr; now left).
    destruct (IH (fun q H => Hl q (or_intror H)) N2 ((vn p, None) :: st)) as (st' & R & X & Ks & Lk).
    { intros q Hq [E|I]; [apply variable_name_inj in E; subst; contradiction|]. apply (Fr q); auto. now right. }
    { cbn. now constructor. }
    exists st'. split; [|split; [|split]].
    + change (run_all (SDeclare (vn p) None :: map (fun p => SDeclare (vn p) None) l) st) with
        (match do_stmt A Q M outer (SDeclare (vn p) None) st with
         | Some (false, st1, o1) => match run_all (map (fun p => SDeclare (vn p) None) l) st1 with Some (fin, st2, o2) => Some (fin, st2, o1 ++ o2) | None => None end
         | x => x end).
      cbn [do_stmt]. unfold in_scope. apply look_none in Np. rewrite Np, (sp_temp _ _ _ SP j p (Hl p (or_introl eq_refl))), R. reflexivity.
    + apply ext_trans with ((vn p, None) :: st); auto. now apply ext_cons.
    + rewrite Ks. cbn [map rev keys fst]. now rewrite <- app_assoc.
    + intros s I. rewrite Lk by now right. cbn [look]. destruct (String.eqb_spec (vn p) s) as [<-|]; auto. contradiction.
Qed.
Lemma ctx_declare U L d st j : ctx U L d st -> ~ In j U -> ~ In j L ->
  exists st', run_all (map (fun p => SDeclare (vname N p) None) (phi_declarations c j)) st = Some (false, st', []) /\ extends_store st st' /\
    ctx U (j :: L) (phi_declarations c j ++ d) st'.
Proof.
  intros X NU NL. assert (Ph : forall p, In p (phi_declarations c j) <-> In p (ops_of c j) /\ declares_phi c p = true) by (intros p; unfold phi_declarations; apply filter_In).
  destruct (declare_run j (phi_declarations c j) d st U L) as (st' & R & Xt & Ks & Lk); auto.
  { intros p H. now apply Ph. }
  { apply NoDup_filter, (br_nodup _ _ _ BR). }
  { intros p H I. apply Ph in H. destruct (cx_keys _ _ _ _ X _ I) as (v & u & E & Kv & D). apply variable_name_inj in E. subst v.
    pose proof (block_unique c e all BR u j p Kv (proj1 H)) as ->. tauto. }
  exists st'. split; [exact R|]. split; auto. split; try apply X.
  - intros v Lv Dv. assert (Dv' : declared d v = true).
    { rewrite declared_app in Dv. apply orb_prop in Dv. destruct Dv as [Dv|]; auto. apply declared_in, Ph in Dv. apply avail_in in Lv. destruct Lv as (u & Hu & Kv).
      rewrite (block_unique c e all BR u j v Kv (proj1 Dv)) in Hu. contradiction. }
    pose proof (cx_temp _ _ _ _ X v Lv Dv') as E. rewrite Lk; auto. destruct (in_dec string_dec (vn v) (keys st)) as [|H]; auto. apply look_none in H. congruence.
  - intros v Lv Dv. rewrite declared_app, (cx_phi _ _ _ _ X v Lv Dv). apply orb_true_r.
  - intros s I. rewrite Ks, in_app_iff in I. destruct I as [I|I].
    + apply in_rev, in_map_iff in I. destruct I as (p & <- & Hp). apply Ph in Hp. exists p, j. split; auto. split; [tauto|]. right. split; [now left|]. now apply declares_is_phi.
    + destruct (cx_keys _ _ _ _ X s I) as (v & u & E & Kv & D). exists v, u. split; auto. split; auto. cbn. tauto.
  - apply (ext_nodup st st' Xt).
  - intros m p [<-|Hm] Kp Dp; rewrite declared_app.
    + assert (I : In p (phi_declarations c j)) by now apply Ph. apply declared_in in I. now rewrite I.
    + rewrite (cx_decl _ _ _ _ X m p Hm Kp Dp). apply orb_true_r.
  - intros m p [<-|Hm] Kp Dp; rewrite Ks, in_app_iff.
    + left. apply in_rev. rewrite rev_involutive. apply in_map. now apply Ph.
    + right. now apply (cx_pend _ _ _ _ X m p).
  - intros m [<-|Hm]; auto. now apply (cx_apart _ _ _ _ X).
Qed.

(** A block. *)
Lemma ctx_block U K b from d st fuel ss asg d1 last saves : ctx U (b :: K) d st -> ~ In b K -> good A c Ev from b -> dominated U b ->
  (forall y, next b = [y] -> has_phi c y -> hd_error K = Some y) -> stacked c K -> carried (b :: K) from st -> clean [b] d ->
  block_operations N c fuel d (ops_of c b) = Ok (ss, asg, d1) -> output_operations N outs c fuel d1 last (ops_of c b) = Ok saves ->
  exists fin st1, run_all (ss ++ map (fun a => SAssign (fst a) (snd a)) (sort_assign asg) ++ saves) st = Some (fin, st1, map (as_output A) (block_outs A c Ev b)) /\
    (last = false -> fin = false) /\ ctx (b :: U) K d1 st1 /\ extends_store st st1 /\ carried K (Some b) st1 /\
    (forall v, declared d v = true -> declared d1 v = true) /\
    (forall v, declared d1 v = true -> declared d v = true \/ In v (ops_of c b)).
Proof.
  intros X NbK Gb DM EK ST Ca Cl B O.
  assert (NbU : ~ In b U) by (apply (cx_apart _ _ _ _ X); now left).
  assert (KU : forall m, In m K -> ~ In m U) by (intros m Hm; apply (cx_apart _ _ _ _ X); now right).
  destruct (block_exec A Q M N outs outer c e all BR EX SP Ev U K b from NbU NbK KU Gb (cx_val _ _ _ _ X) (cx_closed _ _ _ _ X) DM EK ST fuel d st ss asg d1 last saves)
    as (fin & st1 & R & Hf & L & Xt & C1 & Mo & Nw); auto.
  - split; try apply X. intros s I. destruct (cx_keys _ _ _ _ X s I) as (v & u & E & Kv & D). exists v, u. split; auto. split; auto. cbn [In]. tauto.
  - intros v Kv Dv. apply (cx_decl _ _ _ _ X b v); auto. now left.
  - intros v Kv Dv. apply (Cl b v); auto. now left.
  - intros m p Hm Kp Dp. apply (cx_pend _ _ _ _ X m p); auto. now right.
  - exists fin, st1. split; auto. split; auto. split; [|split; auto; split; auto; split; auto].
    2: { intros v Dv. destruct (Nw v Dv) as [|[? _]]; auto. }
    assert (Av : forall v, avail (b :: U) [] v -> avail U (ops_of c b) v).
    { intros v Lv. apply avail_in in Lv. destruct Lv as (u & [<-|Hu] & Kv); [now right|left; eauto]. }
    split.
    + intros v Lv. apply (lp_temp _ _ _ _ _ _ _ _ _ _ L). auto.
    + intros v Lv. apply (lp_phi _ _ _ _ _ _ _ _ _ _ L). auto.
    + intros s I. destruct (lp_keys _ _ _ _ _ _ _ _ _ _ L s I) as (v & u & E & Kv & D). exists v, u. split; auto. split; auto.
      destruct D as [D|[D|[[Eu|D] Op]]]; [left; now right| |subst u; left; now left|right; auto]. left; left. exact (block_unique c e all BR b u v D Kv).
    + apply (lp_nodup _ _ _ _ _ _ _ _ _ _ L).
    + intros m p Hm Kp Dp. apply Mo. apply (cx_decl _ _ _ _ X m p); auto. now right.
    + intros m p Hm Kp Dp. apply (ext_keys st st1); auto. apply (cx_pend _ _ _ _ X m p); auto. now right.
    + intros u v [<-|Hu] Kv Np; [now apply (good_value A c Ev from b v Gb)|]. now apply (cx_val _ _ _ _ X u v).
    + intros u v a [<-|Hu] Kv Np Ia.
      * assert (H : avail U (ops_of c b) a).
        { apply in_split in Kv. destruct Kv as (x1 & x2 & E). rewrite E. apply avail_mono. now apply (operand_avail c e all BR U b DM x1 v x2). }
        destruct H as [(u & Hu & Ka)|H]; [exists u; split; auto; now right|exists b; split; auto; now left].
      * destruct (cx_closed _ _ _ _ X u v a Hu Kv Np Ia) as (u' & Hu' & Ka). exists u'. split; auto. now right.
    + intros m Hm [<-|Hu]; auto. now apply (KU m).
Qed.

Definition post (U K bs : list nat) (k : option nat) (d d' : list name) (st st' : store A) (from' : option nat) : Prop :=
  extends_store st st' /\ (forall v, avail U [] v -> declared d' v = true -> look A st' (vn v) = Some (Some (r v))) /\
  (forall v, declared d v = true -> declared d' v = true) /\
  (forall v, declared d' v = true -> declared d v = true \/ exists u, In u bs /\ In v (ops_of c u)) /\
  (forall m, k = Some m -> carried K from' st').
Definition execute (b : nat) (k : option nat) (bs : list nat) : Prop :=
  forall U K from d st p f ss d' stop, single_entry next b bs -> k = hd_error K -> (forall x, In x stop <-> In x K) -> stacked c K ->
    ctx U (b :: K) d st -> dominated U b -> carried (b :: K) from st -> clean bs d -> (forall a, In a bs -> ~ In a U /\ ~ In a K) ->
    trace A Q c Ev from b p -> process_block N outs c f b stop d = Ok (ss, d') ->
    exists fin st' p1 p2 from', p = p1 ++ p2 /\ run_all ss st = Some (fin, st', map (as_output A) (flat_map (block_outs A c Ev) p1)) /\
      post U K bs k d d' st st' from' /\ match k with None => p2 = [] | Some m => fin = false /\ trace A Q c Ev from' m p2 end.

Lemma dominated_next U b x : In x (next b) -> dominated U b -> dominated (b :: U) x.
Proof.
  intros Hx DM u Nu Nx. apply avoids_trans with b.
  - apply DM; intros H; apply Nu; [now right|now left].
  - apply avoids_next with x; auto; [intros ->; apply Nu; now left|]. apply avoids_here. congruence.
Qed.
Lemma dominated_join U b l rr j k bl br bj : next b = [l; rr] -> region next l (Some j) bl -> region next rr (Some j) br -> region next j k bj -> In j bj ->
  NoDup (b :: bl ++ br ++ bj) -> (forall x, In x (b :: bl ++ br ++ bj) -> ~ In x U) -> dominated U b -> dominated (b :: U) j.
Proof.
  intros E Hl Hr Hj Inj ND NU DM u Nu Nj. assert (Nub : u <> b) by (intros ->; apply Nu; now left).
  assert (NuU : ~ In u U) by (intros H; apply Nu; now right).
  destruct (parts b bl br bj ND) as ((B1 & B2 & B3) & P1 & P2 & P3).
  apply avoids_trans with b; [now apply DM|].
  destruct (in_dec Nat.eq_dec u bl) as [I|I].
  - assert (Nr : ~ In u br) by (intros H; exact (P1 u I H)). apply avoids_next with rr; [auto| |].
    + rewrite E. right. now left.
    + now apply (region_across next rr j br u Hr).
  - apply avoids_next with l; [auto| |].
    + rewrite E. now left.
    + now apply (region_across next l j bl u Hl).
Qed.

Lemma do_inner l st : (match run_all l st with Some (fin, st1, o) => Some (fin, leave A st st1, o) | None => None end) =
  (match (fix do_all (l : list stmt) (st : store A) : option (effect A) :=
      match l with
      | [] => Some (false, st, [])
      | x :: t =>
          match do_stmt A Q M outer x st with
          | Some (false, st1, o1) =>
              match do_all t st1 with Some (fin, st2, o2) => Some (fin, st2, o1 ++ o2) | None => None end
          | r => r
          end
      end) l st with Some (fin, st1, o) => Some (fin, leave A st st1, o) | None => None end).
Proof. reflexivity. Qed.
Lemma do_branch x l rr st dd : eval A M outer st x = Some dd -> do_stmt A Q M outer (SBranch x l rr) st =
  match run_all (if truth Q dd then l else rr) st with Some (fin, st1, o) => Some (fin, leave A st st1, o) | None => None end.
Proof. intros E. cbn [do_stmt]. rewrite E. reflexivity. Qed.
Lemma do_optional k l st : do_stmt A Q M outer (SOptional k l) st = if truth Q (sem A (OOutReq k) []) then
  match run_all l st with Some (fin, st1, o) => Some (fin, leave A st st1, o) | None => None end else Some (false, st, []).
Proof. reflexivity. Qed.
Lemma trace_end from b p : next b = [] -> trace A Q c Ev from b p -> p = [b] /\ good A c Ev from b.
Proof.
  intros E T. destruct T as [from b _ G|from b x p G Nx T]; auto. unfold next_block in Nx. rewrite E in Nx. discriminate.
Qed.
Lemma trace_one from b x p : next b = [x] -> trace A Q c Ev from b p -> exists q, p = b :: q /\ good A c Ev from b /\ trace A Q c Ev (Some b) x q.
Proof.
  intros E T. destruct T as [from b E' G|from b y p G Nx T]; [congruence|]. unfold next_block in Nx. rewrite E in Nx. injection Nx as <-. eauto.
Qed.
Lemma trace_two from b l rr p : next b = [l; rr] -> trace A Q c Ev from b p -> exists q v a, p = b :: q /\ good A c Ev from b /\ last_op c b = Ok v /\
  op_of g v = OJump /\ args g v = [a] /\ trace A Q c Ev (Some b) (if truth Q (r a) then l else rr) q.
Proof.
  intros E T. destruct T as [from b E' G|from b y p G Nx T]; [congruence|]. unfold next_block in Nx. rewrite E in Nx. unfold last_op.
  destruct (rev (ops_of c b)) as [|v w]; [discriminate|]. destruct (op_of g v) eqn:Ov; try discriminate. destruct (args g v) as [|a [|? ?]] eqn:Ea; try discriminate.
  destruct (Ev a) as [dd|] eqn:Ed; [|discriminate]. injection Nx as <-. exists p, v, a. unfold StmtRun.r. rewrite Ed. auto 10.
Qed.
Lemma carried_sub L L' o st : (forall u, In u L' -> In u L) -> carried L o st -> carried L' o st.
Proof. intros H C s x p u Es Kx Fx Dp Hu Kp. apply (C s x p u); auto. Qed.
Lemma carried_branch b l rr L st : next b = [l; rr] -> carried L (Some b) st.
Proof.
  intros E s x p u Es Kx Fx Dp Hu Kp. injection Es as <-. destruct (feeds_block c e all BR x p b Fx Kx) as (u' & t1 & _ & E1 & _). congruence.
Qed.
Lemma in_last v b : last_op c b = Ok v -> In v (ops_of c b).
Proof. unfold last_op. destruct (rev (ops_of c b)) as [|w q] eqn:E; [discriminate|]. intros H. injection H as <-. apply in_rev. rewrite E. now left. Qed.

(** One of two ways, and leaving it. *)
Lemma one_way x j bx K U d d' st st2 p f ss stop : execute x (Some j) bx -> single_entry next x bx ->
  (forall y, In y stop <-> In y (j :: K)) -> stacked c (j :: K) -> ctx U (j :: K) d st2 -> In x (j :: K) \/ (~ has_phi c x /\ ~ In x U) -> dominated U x ->
  (forall L, carried L st st2) -> clean bx d -> (forall a, In a bx -> ~ In a U /\ ~ In a (j :: K)) -> trace A Q c Ev st x p ->
  process_block N outs c f x stop d = Ok (ss, d') ->
  exists st3 p1 p2 from', p = p1 ++ p2 /\ run_all ss st2 = Some (false, st3, map (as_output A) (flat_map (block_outs A c Ev) p1)) /\
    trace A Q c Ev from' j p2 /\ ctx U (j :: K) d' (leave A st2 st3) /\ carried (j :: K) from' (leave A st2 st3) /\ keys (leave A st2 st3) = keys st2.
Proof.
  intros Ix SE Hs ST X Hx DM Ca Cl Ap Tr Pr.
  destruct (Ix U (j :: K) st d st2 p f ss d' stop) as (fin & st3 & p1 & p2 & from' & Ep & R & (Xt & Tm & Mo & Nw & Cp) & Ef & T2); auto.
  { now apply ctx_cons. }
  subst fin. exists st3, p1, p2, from'. split; auto. split; auto. split; auto.
  pose proof (leave_keys st2 st3 Xt) as Lk.
  assert (X' : ctx U (j :: K) d' st2).
  { apply (ctx_more U (j :: K) d d' st2 X Mo). intros v Dv. destruct (Nw v Dv) as [|(u & Hu & Kv)]; auto. right. exists u. split; auto. now apply Ap. }
  assert (In_keys : forall v x, look A st2 (vn v) = Some x -> In (vn v) (keys st2)).
  { intros v y E. destruct (in_dec string_dec (vn v) (keys st2)) as [|H]; auto. apply look_none in H. congruence. }
  split; [|split; auto].
  - apply (ctx_store U (j :: K) d' st2); auto. intros v Lv Dv. rewrite leave_look; auto. apply (In_keys v (Some (r v))). now apply (cx_temp _ _ _ _ X').
  - intros s y q u Es Ky Fy Dq Hu Kq. rewrite leave_look; auto; [|now apply (cx_pend _ _ _ _ X u q)]. now apply (Cp j eq_refl s y q u).
Qed.

(** Which values get variables. *)
Definition grows (bs : list nat) (d d' : list name) : Prop :=
  (forall v, declared d v = true -> declared d' v = true) /\
  (forall v, declared d' v = true -> declared d v = true \/ exists u, In u bs /\ In v (ops_of c u)).
Lemma grows_trans bs1 bs2 bs d1 d2 d3 : (forall u, In u bs1 -> In u bs) -> (forall u, In u bs2 -> In u bs) -> grows bs1 d1 d2 -> grows bs2 d2 d3 -> grows bs d1 d3.
Proof.
  intros H1 H2 [M1 N1] [M2 N2]. split; auto. intros v Dv. destruct (N2 v Dv) as [Dv'|(u & Hu & Kv)]; [|right; eauto].
  destruct (N1 v Dv') as [|(u & Hu & Kv)]; auto. right; eauto.
Qed.
Lemma grows_phis j d : grows [j] d (phi_declarations c j ++ d).
Proof.
  split; intros v; rewrite declared_app; [intros ->; apply orb_true_r|]. intros Dv. apply orb_prop in Dv. destruct Dv as [Dv|]; auto. right. exists j. split; [now left|].
  apply declared_in, filter_In in Dv. tauto.
Qed.
Lemma grows_block fuel : forall l d ss asg d', block_operations N c fuel d l = Ok (ss, asg, d') ->
  (forall v, declared d v = true -> declared d' v = true) /\ (forall v, declared d' v = true -> declared d v = true \/ In v l).
Proof.
  induction l as [|v l IH]; intros d ss asg d' B; [injection B as <- <- <-; auto|].
  assert (exists d1 ss1 asg1, (d1 = d \/ d1 = v :: d) /\ block_operations N c fuel d1 l = Ok (ss1, asg1, d')) as (d1 & ss1 & asg1 & H1 & B1).
  { cbn [block_operations] in B.
    assert (G : forall phis inl (o : op), bind phis (fun phis => bind inl (fun inline : bool =>
              let needs := is_argument_read o || negb inline && ((1 <? length (filter (fun x => negb (is_phi (op_of g x))) (cons_of g v))) || (1 <? length phis)) in
              let d1 := if needs then v :: d else d in
              bind (visit_value N g d1 fuel v) (fun rhs => let rhs1 := if needs then AVar (vname N v) else rhs in
              bind (block_operations N c fuel d1 l) (fun r => let '(ss, asg, d2) := r in
              Ok ((if needs then [SDeclare (vname N v) (Some rhs)] else []) ++ ss, map (fun p : name => (vname N p, rhs1)) phis ++ asg, d2))))) = Ok (ss, asg, d') ->
              exists d1 ss1 asg1, (d1 = d \/ d1 = v :: d) /\ block_operations N c fuel d1 l = Ok (ss1, asg1, d')).
    { clear B. intros phis inl o B. binv B. binv B. cbv zeta in B. set (needs := is_argument_read o || _) in B. clearbody needs. binv B. binv B. destruct x2 as [[s2 a2] d2].
      injection B as _ _ <-. exists (if needs then v :: d else d), s2, a2. split; auto. destruct needs; auto. }
    destruct (op_of g v); try (exists d, ss, asg; split; [now left|exact B]); exact (G _ _ _ B). }
  destruct (IH _ _ _ _ B1) as [I1 I2]. split.
  - intros w Dw. apply I1. destruct H1 as [->| ->]; auto. rewrite declared_cons, Dw. apply orb_true_r.
  - intros w Dw. destruct (I2 w Dw) as [Dw'|]; [|right; now right]. destruct H1 as [->| ->]; auto. rewrite declared_cons in Dw'. apply orb_prop in Dw'.
    destruct Dw' as [Ew|]; auto. apply Nat.eqb_eq in Ew. right. left. auto.
Qed.
Lemma grows_region b k bs : region next b k bs -> forall f stop d ss d', (forall a, In a bs -> ~ In a stop) -> (forall m, k = Some m -> In m stop) ->
  process_block N outs c f b stop d = Ok (ss, d') -> grows bs d d'.
Proof.
  induction 1 as [m|b E|b x k bs E H IH Nb Nk|b l rr j k bl br bj E Hl IHl Hr IHr Hj IHj Inj ND Nm]; intros f stop d ss d' Hs Hk Pr; (destruct f as [|f]; [discriminate|]); cbn [process_block] in Pr.
  - specialize (Hk m eq_refl). apply in_set_spec in Hk. rewrite Hk in Pr. injection Pr as <- <-. split; auto.
  - rewrite in_set_false in Pr by (apply Hs; now left). rewrite E in Pr. binv Pr. destruct x as [[s1 asg] d1]. binv Pr. injection Pr as <- <-.
    destruct (grows_block _ _ _ _ _ _ E0) as [G1 G2]. split; auto. intros v Dv. destruct (G2 v Dv); auto. right. exists b. split; auto. now left.
  - rewrite in_set_false in Pr by (apply Hs; now left). rewrite E in Pr.
    destruct (match ops_of c b with [] => true | _ => false end); [discriminate|].
    binv Pr. destruct x0 as [[s1 asg] d1]. binv Pr. binv Pr. 
    destruct (is_jump _); [discriminate|]. binv Pr. destruct x2 as [sn dn]. injection Pr as <- <-.
    destruct (grows_block _ _ _ _ _ _ E0) as [G1 G2]. apply (grows_trans [b] bs (b :: bs) d d1 dn).
    + intros u [<-|[]]. now left.
    + intros u Hu. now right.
    + split; auto. intros v Dv. destruct (G2 v Dv); auto. right. exists b. split; auto. now left.
    + apply (IH f stop d1 sn dn); auto. intros a Ha. apply Hs. now right.
  - rewrite in_set_false in Pr by (apply Hs; now left). rewrite E in Pr.
    destruct (match ops_of c b with [] => true | _ => false end); [discriminate|].
    binv Pr. destruct x as [[s1 asg] d1]. binv Pr. binv Pr. destruct (is_jump _); [|discriminate].
    pose proof (region_joins next b l rr j bl br bj E Hl Hr ND Inj (br_acyclic _ _ _ BR)) as Jn.
    destruct (find_merge_sound next l rr j Jn (S f)) as [Em|Em]; rewrite Em in Pr; [discriminate|]. cbn [bind] in Pr.
    binv Pr. binv Pr. binv Pr. destruct x1 as [sl dl], x2 as [sb db], x3 as [sj dj]. cbn [fst snd] in *. injection Pr as <- <-.
    destruct (grows_block _ _ _ _ _ _ E0) as [G1 G2].
    destruct (parts b bl br bj ND) as ((B1 & B2 & B3) & P1 & P2 & P3).
    assert (Njs : ~ In j stop) by (apply Hs; right; rewrite !in_app_iff; auto).
    assert (Hs1 : forall y, In y (insert_set j stop) <-> y = j \/ In y stop).
    { intros y. unfold insert_set. rewrite in_set_false by auto. cbn [In]. intuition congruence. }
    assert (Gb : grows [b] d d1) by (split; auto; intros v Dv; destruct (G2 v Dv); auto; right; exists b; split; auto; now left).
    pose proof (grows_phis j d1) as Gp.
    assert (Gl : grows bl (phi_declarations c j ++ d1) dl).
    { apply (IHl f (insert_set j stop) _ sl dl); auto.
      - intros a Ha I. apply Hs1 in I. destruct I as [->|I]; [exact (P2 j Ha Inj)|]. apply (Hs a); auto. right. rewrite !in_app_iff. auto.
      - intros m Em'. injection Em' as <-. apply Hs1. now left. }
    assert (Gr : grows (bl ++ br) dl db).
    { assert (Id : grows (bl ++ br) dl dl) by (split; auto).
      assert (Gr : forall sr dr, process_block N outs c f rr (insert_set j stop) dl = Ok (sr, dr) -> grows (bl ++ br) dl dr).
      { intros sr dr Er. assert (G : grows br dl dr).
        { apply (IHr f (insert_set j stop) _ sr dr); auto.
          - intros a Ha I. apply Hs1 in I. destruct I as [->|I]; [exact (P3 j Ha Inj)|]. apply (Hs a); auto. right. rewrite !in_app_iff. auto.
          - intros m Em'. injection Em' as <-. apply Hs1. now left. }
        destruct G as [Ga Gc]. split; auto. intros v Dv. destruct (Gc v Dv) as [|(u & Hu & Kv)]; auto. right. exists u. rewrite in_app_iff. auto. }
      destruct (args g x0) as [|cond ?]; [discriminate|].
      destruct (op_of g cond); try (binv E4; binv E4; destruct x1 as [sr dr]; injection E4 as <- <-; now apply (Gr sr dr)).
      destruct (outs _); [|discriminate]. injection E4 as _ <-. exact Id. }
    assert (Gj : grows bj db dj).
    { rewrite erase_insert in E5 by auto. apply (IHj f stop db sj dj); auto. intros a Ha. apply Hs. right. rewrite !in_app_iff. auto. }
    apply (grows_trans [b] (bl ++ br ++ bj) _ d d1 dj); auto; [intros u [<-|[]]; now left|intros u Hu; now right|].
    apply (grows_trans [j] (bl ++ br ++ bj) _ d1 (phi_declarations c j ++ d1) dj); auto; [intros u [<-|[]]; rewrite !in_app_iff; auto|].
    apply (grows_trans bl (bl ++ br ++ bj) _ _ dl dj); auto; [intros u Hu; rewrite !in_app_iff; auto|].
    apply (grows_trans (bl ++ br) bj _ _ db dj); auto; intros u Hu; rewrite !in_app_iff in *; tauto.
Qed.

Lemma region_execute b k bs : region next b k bs -> execute b k bs.
Proof.
  induction 1 as [m|b E|b x k bs E H IH Nb Nk|b l rr j k bl br bj E Hl IHl Hr IHr Hj IHj Inj ND Nm];
    intros U K from d st p f ss d' stop SE Ek Hs ST X DM Ca Cl Ap Tr Pr.
  - destruct f as [|f]; [discriminate|]. cbn [process_block] in Pr. assert (Im : In m K) by (destruct K; [discriminate|injection Ek as ->; now left]).
    assert (In m stop) as Is by now apply Hs. apply in_set_spec in Is. rewrite Is in Pr. injection Pr as <- <-.
    exists false, st, [], p, from. split; auto. split; [reflexivity|]. split; auto. split; [apply ext_refl, X|]. split; [apply X|]. split; auto. split; auto.
    intros m' _. apply carried_sub with (m :: K); auto. intros u Hu. now right.
  - destruct K as [|? ?]; [|discriminate]. destruct f as [|f]; [discriminate|]. cbn [process_block] in Pr.
    rewrite in_set_false in Pr by (intros I; apply Hs in I; contradiction). rewrite E in Pr. binv Pr. destruct x as [[s1 asg] d1]. binv Pr. injection Pr as <- <-.
    destruct (trace_end from b p E Tr) as [-> Gb].
    destruct (ctx_block U [] b from d st f s1 asg d1 true x) as (fin & st1 & R & _ & X1 & Xt & C1 & Mo & Nw); auto; [congruence|].
    exists fin, st1, [b], [], from. split; auto. split; [cbn [flat_map]; now rewrite app_nil_r|]. split; auto. split; auto. split.
    + intros v Lv. apply (cx_temp _ _ _ _ X1). apply avail_in in Lv. destruct Lv as (u & Hu & Kv). apply avail_in. exists u. split; auto. now right.
    + split; auto. split; [|discriminate]. intros v Dv. destruct (Nw v Dv); auto. right. exists b. split; auto. now left.
  - destruct (trace_one from b x p E Tr) as (q & -> & Gb & Tq). destruct f as [|f]; [discriminate|]. cbn [process_block] in Pr.
    assert (NbK : ~ In b K) by (apply Ap; now left).
    rewrite in_set_false in Pr by (intros I; apply Hs in I; contradiction). rewrite E in Pr.
    assert (Ib : In b all) by (apply (next_in c e all BR b x); rewrite E; now left).
    pose proof (br_jump _ _ _ BR b Ib) as J. unfold jumps_match in J. rewrite E in J. destruct J as (w & Ew & Nw).
    destruct (ops_of c b) as [|o0 os] eqn:Eo; [unfold last_op in Ew; rewrite Eo in Ew; discriminate|]. rewrite <- Eo in Pr.
    binv Pr. destruct x0 as [[s1 asg] d1]. binv Pr. rewrite Ew in Pr. cbn [bind] in Pr.
    replace (is_jump (op_of g w)) with false in Pr by (destruct (op_of g w); cbn; congruence). binv Pr. destruct x1 as [sn dn]. injection Pr as <- <-. cbn [fst].
    assert (Ph : has_phi c x -> bs = [] /\ k = Some x) by (apply (phi_step c e all BR b x k bs); auto).
    destruct (ctx_block U K b from d st f s1 asg d1 false x0) as (fin & st1 & R & Ef & X1 & Xt & C1 & Mo & Nw1); auto.
    { intros y Ey Hy. rewrite E in Ey. injection Ey as <-. rewrite <- Ek. now apply Ph. }
    { intros a v [<-|[]]. apply Cl. now left. }
    rewrite Ef in R by auto. clear Ef fin.
    assert (Nxb : x <> b) by (intros ->; apply (no_cycle c e all BR b b); [rewrite E; now left|constructor]).
    assert (Hx : In x K \/ (~ has_phi c x /\ ~ In x (b :: U))).
    { assert (In x bs \/ Some x = k) as [I|I] by (clear -H; inversion H; subst; auto; left; now left).
      - right. destruct (Ap x (or_intror I)) as [N1 N2]. split; [intros Hp; destruct (Ph Hp) as [-> _]; contradiction|]. intros [|I']; [congruence|contradiction].
      - left. rewrite Ek in I. destruct K; [discriminate|]. cbn in I. injection I as ->. now left. }
    destruct (IH (b :: U) K (Some b) d1 st1 q f sn dn stop) as (fin & st2 & p1 & p2 & from' & -> & R2 & (Xt2 & Tm2 & Mo2 & Nw2 & Cp2) & Ef); auto.
    { now apply (entry_step next b x k bs). }
    { now apply ctx_cons. }
    { apply dominated_next; auto. rewrite E. now left. }
    { intros s y pp u Es Ky Fy Dy Hu Kp. injection Es as <-. destruct Hx as [Ix|[Np _]].
      - apply (C1 b y pp u); auto. destruct Hu as [<-|]; auto.
      - destruct Hu as [<-|Hu]; [exfalso; apply Np; exists pp; split; auto; now apply (feeds_phi c y pp)|]. now apply (C1 b y pp u). }
    { intros a v Ha Kv Dv. destruct (Nw1 v Dv) as [|Kb]; [apply (Cl a); auto; now right|]. rewrite (block_unique c e all BR a b v Kv Kb) in Ha. contradiction. }
    { intros a Ha. destruct (Ap a (or_intror Ha)) as [N1 N2]. split; auto. intros [<-|]; auto. }
    exists fin, st2, (b :: p1), p2, from'. split; auto. split.
    { replace (s1 ++ map (fun a => SAssign (fst a) (snd a)) (sort_assign asg) ++ x0 ++ sn) with ((s1 ++ map (fun a => SAssign (fst a) (snd a)) (sort_assign asg) ++ x0) ++ sn) by now rewrite <- !app_assoc.
      rewrite do_all_app, R, R2. cbn [flat_map]. now rewrite map_app. }
    split; auto. split; [now apply ext_trans with st1|]. split.
    { intros v Lv. apply Tm2. apply avail_in in Lv. destruct Lv as (u & Hu & Kv). apply avail_in. exists u. split; auto. now right. }
    split; auto. split; auto. intros v Dv. destruct (Nw2 v Dv) as [Dv'|(u & Hu & Kv)]; [|right; exists u; split; auto; now right].
    destruct (Nw1 v Dv') as [|Kb]; auto. right. exists b. split; auto. now left.
  - destruct (trace_two from b l rr p E Tr) as (q & w & cond & -> & Gb & Ew & Ow & Ea & Tq). destruct f as [|f]; [discriminate|]. cbn [process_block] in Pr.
    assert (NbK : ~ In b K) by (apply Ap; now left).
    rewrite in_set_false in Pr by (intros I; apply Hs in I; contradiction). rewrite E in Pr.
    pose proof (in_last w b Ew) as Kw.
    destruct (ops_of c b) as [|o0 os] eqn:Eo; [contradiction|]. rewrite <- Eo in *. clear o0 os Eo.
    binv Pr. destruct x as [[s1 asg] d1]. binv Pr. rewrite Ew in Pr. cbn [bind] in Pr. rewrite Ow in Pr. cbn [is_jump] in Pr.
    pose proof (region_joins next b l rr j bl br bj E Hl Hr ND Inj (br_acyclic _ _ _ BR)) as Jn.
    destruct (find_merge_sound next l rr j Jn (S f)) as [Em|Em]; rewrite Em in Pr; [discriminate|]. cbn [bind] in Pr.
    binv Pr. binv Pr. binv Pr. destruct x0 as [sl dl], x1 as [sb db], x2 as [sj dj]. cbn [fst snd] in *. injection Pr as <- <-.
    rename E0 into Eb, E1 into Es, E2 into El, E3 into Ec, E4 into Ej, x into saves.
    destruct (parts b bl br bj ND) as ((B1 & B2 & B3) & P1 & P2 & P3).
    assert (Ij : In j (b :: bl ++ br ++ bj)) by (right; rewrite !in_app_iff; auto).
    assert (Il : forall a, In a bl -> In a (b :: bl ++ br ++ bj)) by (intros a Ha; right; rewrite !in_app_iff; auto).
    assert (Ir : forall a, In a br -> In a (b :: bl ++ br ++ bj)) by (intros a Ha; right; rewrite !in_app_iff; auto).
    assert (Ijj : forall a, In a bj -> In a (b :: bl ++ br ++ bj)) by (intros a Ha; right; rewrite !in_app_iff; auto).
    assert (Nbj : j <> b) by (intros ->; contradiction).
    assert (NjK : ~ In j K) by now apply Ap. assert (NjU : ~ In j U) by now apply Ap.
    destruct (no_phi_branch c e all BR b l rr E) as [Npl Npr].
    destruct (ctx_block U K b from d st f s1 asg d1 false saves) as (fin & st1 & R & Ef & X1 & Xt & C1 & Mo & Nw1); auto.
    { intros y Ey. congruence. }
    { intros a v [<-|[]]. apply Cl. now left. }
    rewrite Ef in R by auto. clear Ef fin.
    destruct (ctx_declare (b :: U) K d1 st1 j X1) as (st2 & R2 & Xt2 & X2); auto.
    { intros [|]; [congruence|]. contradiction. }
    set (d2 := phi_declarations c j ++ d1) in *.
    assert (Dd2 : forall v, declared d2 v = true -> declared d1 v = true \/ (In v (ops_of c j) /\ declares_phi c v = true)).
    { intros v Dv. unfold d2 in Dv. rewrite declared_app in Dv. apply orb_prop in Dv. destruct Dv as [Dv|]; auto. right. apply declared_in in Dv. now apply filter_In in Dv. }
    assert (Cl2 : forall a v, In a (bl ++ br ++ bj) -> In v (ops_of c a) -> declared d2 v = true -> declares_phi c v = true).
    { intros a v Ha Kv Dv. destruct (Dd2 v Dv) as [Dv'|[_ ?]]; auto. destruct (Nw1 v Dv') as [Dv''|Kb].
      - apply (Cl a v); auto. now right.
      - rewrite (block_unique c e all BR a b v Kv Kb) in Ha. rewrite !in_app_iff in Ha. tauto. }
    assert (Hs1 : forall y, In y (insert_set j stop) <-> In y (j :: K)).
    { intros y. unfold insert_set. rewrite in_set_false by (intros I; apply Hs in I; contradiction). cbn [In]. now rewrite Hs. }
    assert (SEj : single_entry next j bj) by (apply (entry_join next b l rr j k bl br bj); auto).
    assert (ST1 : stacked c (j :: K)).
    { cbn [stacked]. split; auto. intros x Ex Hp. rewrite <- Ek. clear -BR Hj Inj SEj Ex Hp.
      inversion Hj as [m|? E'|? y ? bs' E' H' Nj' _|? ? ? ? ? ? ? ? E']; subst; try congruence; [contradiction|].
      assert (y = x) as -> by congruence. now destruct (phi_step c e all BR j x k bs'). }
    assert (Apl : forall a, In a bl -> ~ In a (b :: U) /\ ~ In a (j :: K)).
    { intros a Ha. destruct (Ap a (Il a Ha)) as [N1 N2]. split; intros [<-|I]; auto. exact (P2 j Ha Inj). }
    assert (Apr : forall a, In a br -> ~ In a (b :: U) /\ ~ In a (j :: K)).
    { intros a Ha. destruct (Ap a (Ir a Ha)) as [N1 N2]. split; intros [<-|I]; auto. exact (P3 j Ha Inj). }
    assert (Hlx : In l (j :: K) \/ (~ has_phi c l /\ ~ In l (b :: U))).
    { destruct (head_left next l j bl Hl) as [I|[-> _]]; [right; split; auto; now apply Apl|left; now left]. }
    assert (Hrx : In rr (j :: K) \/ (~ has_phi c rr /\ ~ In rr (b :: U))).
    { destruct (head_right next rr j br Hr) as [I|[-> _]]; [right; split; auto; now apply Apr|left; now left]. }
    assert (DMl : dominated (b :: U) l) by (apply dominated_next; auto; rewrite E; now left).
    assert (DMr : dominated (b :: U) rr) by (apply dominated_next; auto; rewrite E; right; now left).
    assert (SEl : single_entry next l bl) by (apply (entry_left next b l rr j k bl br bj); auto).
    assert (SEr : single_entry next rr br) by (apply (entry_right next b l rr j k bl br bj); auto).
    assert (Cb : forall L, carried L (Some b) st2) by (intros L; now apply (carried_branch b l rr)).
    assert (Gl : grows bl d2 dl).
    { apply (grows_region l (Some j) bl Hl f (insert_set j stop) d2 sl dl); auto.
      - intros a Ha I. apply Hs1 in I. now apply (Apl a).
      - intros m Em'. injection Em' as <-. apply Hs1. now left. }
    assert (Cases : (exists key, op_of g cond = OOutReq key /\ sb = SOptional key sl /\ db = dl) \/
       (exists sr dr x, process_block N outs c f rr (insert_set j stop) dl = Ok (sr, dr) /\ visit_argument N g dr (visit_value N g dr f) None cond = Ok x /\
          sb = SBranch x sl sr /\ db = dr)).
    { rewrite Ea in Ec. destruct (op_of g cond) eqn:Oc; try (right; binv Ec; binv Ec; destruct x as [sr dr]; injection Ec as <- <-; exists sr, dr, x0; auto; fail).
      left. destruct (outs _); [|discriminate]. injection Ec as <- <-. eauto. }
    assert (Nwp : op_of g w <> OPhi) by congruence.
    assert (Ic : In cond (args g w)) by (rewrite Ea; now left).
    destruct (cx_closed _ _ _ _ X1 b w cond (or_introl eq_refl) Kw Nwp Ic) as (uc & Huc & Kc).
    assert (Way : forall x bx dx dx' sx, execute x (Some j) bx -> single_entry next x bx -> In x (j :: K) \/ (~ has_phi c x /\ ~ In x (b :: U)) -> dominated (b :: U) x ->
       clean bx dx -> (forall a, In a bx -> ~ In a (b :: U) /\ ~ In a (j :: K)) -> ctx (b :: U) (j :: K) dx st2 -> process_block N outs c f x (insert_set j stop) dx = Ok (sx, dx') ->
       trace A Q c Ev (Some b) x q -> exists st3 p1 p2 from', q = p1 ++ p2 /\ run_all sx st2 = Some (false, st3, map (as_output A) (flat_map (block_outs A c Ev) p1)) /\
       trace A Q c Ev from' j p2 /\ ctx (b :: U) (j :: K) dx' (leave A st2 st3) /\ carried (j :: K) from' (leave A st2 st3) /\ keys (leave A st2 st3) = keys st2).
    { intros x bx dx dx' sx Ix SEx Hx DMx Clx Apx Xx Px Tx. now apply (one_way x j bx K (b :: U) dx dx' (Some b) st2 q f sx (insert_set j stop)). }
    assert (Mid : exists st4 p1 p2 from', q = p1 ++ p2 /\ do_stmt A Q M outer sb st2 = Some (false, st4, map (as_output A) (flat_map (block_outs A c Ev) p1)) /\
      trace A Q c Ev from' j p2 /\ ctx (b :: U) (j :: K) db st4 /\ carried (j :: K) from' st4 /\ keys st4 = keys st2 /\ grows (bl ++ br) d2 db).
    { assert (Out : forall bx dx dx', (forall a, In a bx -> ~ In a (b :: U)) -> grows bx dx dx' -> forall s, ctx (b :: U) (j :: K) dx s -> ctx (b :: U) (j :: K) dx' s).
      { intros bx dx dx' Hb [G1 G2] s Xs. apply (ctx_more _ _ dx dx' s Xs G1). intros v Dv. destruct (G2 v Dv) as [|(u & Hu & Kv)]; auto. right. exists u. auto. }
      assert (Xl : ctx (b :: U) (j :: K) dl st2) by (apply (Out bl d2 dl); auto; intros a Ha; now apply Apl).
      assert (Cll : clean bl d2) by (intros a v Ha; apply Cl2; rewrite !in_app_iff; auto).
      destruct Cases as [(key & Oc & -> & ->)|(sr & dr & x & Er & Ex & -> & ->)].
      - destruct (br_optional _ _ _ BR b w cond key Kw Ow Ic Oc) as (l' & r' & a & Ed & Ha & Nab). rewrite E in Ed. injection Ed as <- <-.
        apply (br_edge _ _ _ BR) in Ha. destruct (optional_empty c e all BR b l rr j k bl br bj a E Hl Hr Hj Inj ND Nm SE Ha Nab) as [-> ->].
        assert (Rc : r cond = sem A (OOutReq key) []).
        { rewrite (cx_val _ _ _ _ X1 uc cond Huc Kc) by congruence. now rewrite Oc, (br_request _ _ _ BR uc cond key Kc Oc). }
        rewrite Rc in Tq. rewrite do_optional. rewrite app_nil_r. destruct (truth Q (sem A (OOutReq key) [])).
        + destruct (Way l bl d2 dl sl) as (st3 & p1 & p2 & from' & -> & R3 & T3 & X3 & C3 & K3); auto.
          exists (leave A st2 st3), p1, p2, from'. rewrite R3. auto 10.
        + exists st2, [], q, (Some b). auto 10.
      - assert (Gr : grows br dl dr).
        { apply (grows_region rr (Some j) br Hr f (insert_set j stop) dl sr dr); auto.
          - intros a Ha I. apply Hs1 in I. now apply (Apr a).
          - intros m Em'. injection Em' as <-. apply Hs1. now left. }
        assert (Xr : ctx (b :: U) (j :: K) dr st2) by (apply (Out br dl dr); auto; intros a Ha; now apply Apr).
        assert (Gt : grows (bl ++ br) d2 dr) by (apply (grows_trans bl br _ d2 dl dr); auto; intros u Hu; rewrite in_app_iff; auto).
        assert (Evc : eval A M outer st2 x = Some (r cond)).
        { apply (argument_eval A M N outer c EX SP r (avail (b :: U) [])) with (d := dr) (k := f) (p := None) (w := w); auto.
          - intros v Lv. apply avail_in in Lv. destruct Lv as (u & _ & Kv). eauto.
          - intros v a Lv Np Ia. apply avail_in in Lv. destruct Lv as (u & Hu & Kv). apply avail_in. now apply (cx_closed _ _ _ _ X1 u v a).
          - intros v Lv Np. apply avail_in in Lv. destruct Lv as (u & Hu & Kv). now apply (cx_val _ _ _ _ X1 u v).
          - apply (loop_phi c e all BR (b :: U) [] dr); auto. apply (cx_phi _ _ _ _ Xr).
          - apply (cx_temp _ _ _ _ Xr).
          - apply (ctx_outer _ _ _ _ Xr).
          - apply avail_in. eauto. }
        rewrite (do_branch x sl sr st2 (r cond) Evc). destruct (truth Q (r cond)).
        + destruct (Way l bl d2 dl sl) as (st3 & p1 & p2 & from' & -> & R3 & T3 & X3 & C3 & K3); auto.
          exists (leave A st2 st3), p1, p2, from'. rewrite R3. split; auto. split; auto. split; auto. split; auto. apply (Out br dl dr); auto. intros a Ha. now apply Apr.
        + destruct (Way rr br dl dr sr) as (st3 & p1 & p2 & from' & -> & R3 & T3 & X3 & C3 & K3); auto.
          { intros a v Ha Kv Dv. destruct (proj2 Gl v Dv) as [Dv'|(u & Hu & Ku)]; [apply (Cl2 a v); auto; rewrite !in_app_iff; auto|].
            rewrite (block_unique c e all BR a u v Kv Ku) in Ha. exfalso. exact (P1 u Hu Ha). }
          exists (leave A st2 st3), p1, p2, from'. rewrite R3. auto 10. }
    destruct Mid as (st4 & p1 & p2 & from' & -> & R4 & T4 & X4 & C4 & K4 & G4).
    rewrite erase_insert in Ej by (intros I; apply Hs in I; contradiction).
    destruct (IHj (b :: U) K from' db st4 p2 f sj dj stop) as (fin & st5 & p3 & p4 & from'' & -> & R5 & (Xt5 & Tm5 & Mo5 & Nw5 & Cp5) & Ef); auto.
    { apply (dominated_join U b l rr j k bl br bj); auto. intros x Hx. now apply Ap. }
    { intros a v Ha Kv Dv. destruct (proj2 G4 v Dv) as [Dv'|(u & Hu & Ku)]; [apply (Cl2 a v); auto; rewrite !in_app_iff; auto|].
      rewrite (block_unique c e all BR a u v Kv Ku) in Ha. exfalso. rewrite in_app_iff in Hu. destruct Hu as [Hu|Hu]; [exact (P2 u Hu Ha)|exact (P3 u Hu Ha)]. }
    { intros a Ha. destruct (Ap a (Ijj a Ha)) as [N1 N2]. split; auto. intros [<-|]; auto. }
    exists fin, st5, (b :: p1 ++ p3), p4, from''. split; [cbn; now rewrite <- app_assoc|]. split.
    { rewrite do_all_app, R, do_all_app, R2. cbn [do_all app]. rewrite R4, R5. cbn [flat_map]. now rewrite !map_app, flat_map_app, map_app. }
    split; [|exact Ef]. split; [|split; [|split; [|split; auto]]].
    + apply ext_trans with st1; auto. apply ext_trans with st2; auto. apply ext_trans with st4; auto. apply same_ext; auto. apply (cx_nodup _ _ _ _ X2).
    + intros v Lv. apply Tm5. apply avail_in in Lv. destruct Lv as (u & Hu & Kv). apply avail_in. exists u. split; auto. now right.
    + intros v Dv. apply Mo5, (proj1 G4). unfold d2. rewrite declared_app, (Mo v Dv). apply orb_true_r.
    + intros v Dv. destruct (Nw5 v Dv) as [Dv4|(u & Hu & Kv)]; [|right; exists u; split; auto].
      destruct (proj2 G4 v Dv4) as [Dv2|(u & Hu & Kv)]; [|right; exists u; split; auto; right; rewrite !in_app_iff in *; tauto].
      destruct (Dd2 v Dv2) as [Dv1|[Kv _]]; [|right; exists j; auto].
      destruct (Nw1 v Dv1) as [|Kv]; auto. right. exists b. split; auto. now left.
Qed.
End Execution.

Lemma create_ast_runs (A : algebra) (Q : selecting A) (M : meaning (D A)) (N : names) (outs : string -> option arg_type) (outer : string -> bool)
  (c : cfg) (b : nat) (bs : list nat) (n f : nat) (e : env A) (o : list (nat * string * D A)) (ss : list stmt) :
  branching c b bs -> expresses A M N c -> separate N outer c -> first_block c = Ok b ->
  run A Q c n None b (start A) = Some (e, o) -> create_ast N outs c f = Ok ss ->
  function_outputs A Q M outer ss = Some (map (as_output A) o).
Proof.
  intros BR EX SP Fb R Cr. unfold create_ast in Cr. rewrite Fb in Cr. cbn [bind] in Cr. binv Cr. destruct x as [ss' d']. injection Cr as ->.
  destruct (run_trace A Q c b bs BR n None b (start A) (e, o)) as (p & T & Out); [discriminate|exact R|]. cbn [fst snd start app] in T, Out.
  destruct (region_execute A Q M N outs outer c b bs BR EX SP e b None bs (br_region _ _ _ BR) [] [] None [] [] p f ss d' []) as (fin & st' & p1 & p2 & from' & -> & Rn & _ & ->); auto.
  - apply (entry_all c b bs BR).
  - intros x. split; intros [].
  - exact I.
  - assert (NP : forall p, In p (ops_of c b) -> declares_phi c p = true -> False).
    { intros p0 Kp Dp. apply (no_phi_entry c b bs BR). exists p0. split; auto. now apply declares_is_phi. }
    split.
    + intros v Lv. apply avail_in in Lv. destruct Lv as (u & [] & _).
    + intros v Lv. apply avail_in in Lv. destruct Lv as (u & [] & _).
    + intros s [].
    + constructor.
    + intros m p0 [<-|[]] Kp Dp. destruct (NP p0 Kp Dp).
    + intros m p0 [<-|[]] Kp Dp. destruct (NP p0 Kp Dp).
    + intros u v [].
    + intros u v a [].
    + intros m _ [].
  - intros u _ Nu. apply avoids_here. congruence.
  - intros s x p0 u Es. discriminate.
  - intros a v _ _ D0. discriminate.
  - unfold function_outputs. rewrite Rn. rewrite app_nil_r in Out. now rewrite Out.
Qed.
