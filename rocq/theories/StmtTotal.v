(** Writing the statements of a function always succeeds. *)
From Coq Require Import String List Arith ZArith Bool Lia.
From Verif Require Import Outcome NumProofs IrModel IrSpec CfgModel CfgSpec MergeProofs CountProofs CfgProps ConvSpec AstModel AstSpec AstTree StmtModel StmtSpec StmtStore StmtRegion StmtRun StmtBlock StmtProofs.
Import ListNotations.
Open Scope outcome_scope.
Open Scope nat_scope.
Open Scope list_scope.

(** With enough fuel the result is this. *)
Definition ev {X} (F : nat -> outcome X) (x : X) : Prop := exists n, forall k, n <= k -> F k = Ok x.

Lemma ev_const {X} (x : X) : ev (fun _ => Ok x) x.
Proof. exists 0. auto. Qed.
Lemma ev_shift {X} (F : nat -> outcome X) x : ev (fun k => F (S k)) x -> ev F x.
Proof. intros [n H]. exists (S n). intros [|k] L; [lia|]. apply H. lia. Qed.
Lemma ev_up {X} (F : nat -> outcome X) x : ev F x -> ev (fun k => F (S k)) x.
Proof. intros [n H]. exists n. intros k L. apply H. lia. Qed.
Lemma ev_ext {X} (F G : nat -> outcome X) x : (forall k, F k = G k) -> ev G x -> ev F x.
Proof. intros E [n H]. exists n. intros k L. rewrite E. auto. Qed.
Lemma ev_bind {X Y} (F : nat -> outcome X) (G : nat -> X -> outcome Y) x y : ev F x -> ev (fun k => G k x) y -> ev (fun k => bind (F k) (G k)) y.
Proof. intros [n H] [m K]. exists (n + m). intros k L. rewrite H by lia. cbn [bind]. apply K. lia. Qed.
Lemma ev_map {X Y} (F : nat -> X -> outcome Y) l : (forall a, In a l -> exists x, ev (fun k => F k a) x) -> exists r, ev (fun k => mapM (F k) l) r.
Proof.
  induction l as [|a l IH]; intros H; [exists []; apply ev_const|].
  destruct (H a (or_introl eq_refl)) as (x & Hx). destruct IH as (r & Hr); [intros b Hb; apply H; now right|].
  exists (x :: r). cbn [mapM]. apply (ev_bind _ (fun k b => bind (mapM (F k) l) (fun r => Ok (b :: r))) x); auto.
  apply (ev_bind (fun k => mapM (F k) l) (fun _ r => Ok (x :: r)) r); auto. apply ev_const.
Qed.
Ltac evb x := match goal with |- ev (fun k => bind (@?F k) (@?G k)) _ => apply (ev_bind F G x) end.

Section Total.
Variable N : names.
Variable outs : string -> option arg_type.
Variable c : cfg.
Variables (e : nat) (all : list nat).
Hypothesis BR : branching c e all.
Hypothesis WR : writable N outs c.
Notation g := (c_vals c).
Notation next := (desc c).

(** Operands come before. *)
Lemma value_ind (P : name -> Prop) : (forall t v, In v (ops_of c t) -> (op_of g v <> OPhi -> forall a, In a (args g v) -> P a) -> P v) -> forall t v, In v (ops_of c t) -> P v.
Proof.
  intros Step. destruct (br_acyclic _ _ _ BR) as [rank Hr].
  assert (K : forall m t, rank e - rank t <= m -> In t all -> forall k l1 v l2, length l1 <= k -> ops_of c t = l1 ++ v :: l2 -> P v).
  { induction m as [|m IHm]; intros t Lm It; induction k as [|k IHk]; intros l1 v l2 Lk El;
      assert (Kv : In v (ops_of c t)) by (rewrite El, in_app_iff; right; now left); apply (Step t v Kv); intros Np a Ia;
      destruct (br_defined _ _ _ BR t v a Kv Np Ia) as (u & Ka & Du & Bf);
      (assert (Ru : reach next u t) by (destruct (reach_leads c e t (entry_reaches c e all BR t It)) as (p & Lp); apply (leads_reach c e t p Lp); now apply Du));
      pose proof (ops_in c e all BR u a Ka) as Iu;
      pose proof (reach_rank next rank Hr e u (entry_reaches c e all BR u Iu)) as Leu.
    all: assert (Ct : u = t \/ rank t < rank u) by (clear -Hr Ru; inversion Ru as [|? x ? Hx R']; subst; auto; right; apply Hr in Hx; apply (reach_rank next rank Hr) in R'; lia).
    all: destruct Ct as [->|Lr].
    all: try (specialize (Bf eq_refl); pose proof (br_nodup _ _ _ BR t) as ND; rewrite El in Bf, ND; pose proof (before_prefix l1 l2 a v ND Bf) as I1).
    1: destruct l1; [contradiction|cbn in Lk; lia].
    1: lia.
    1: { apply in_split in I1. destruct I1 as (x1 & x2 & E1). apply (IHk x1 a (x2 ++ v :: l2)).
         - rewrite E1, app_length in Lk. cbn in Lk. lia.
         - rewrite El, E1, <- app_assoc. reflexivity. }
    1: lia.
    1: destruct l1; [contradiction|cbn in Lk; lia].
    2: { apply in_split in I1. destruct I1 as (x1 & x2 & E1). apply (IHk x1 a (x2 ++ v :: l2)).
         - rewrite E1, app_length in Lk. cbn in Lk. lia.
         - rewrite El, E1, <- app_assoc. reflexivity. }
    all: apply in_split in Ka; destruct Ka as (x1 & x2 & E1); apply (IHm u ltac:(lia) Iu (length x1) x1 a x2); auto. }
  intros t v Kv. pose proof (ops_in c e all BR t v Kv) as It. apply in_split in Kv. destruct Kv as (l1 & l2 & E). apply (K (rank e - rank t) t (le_n _) It (length l1) l1 v l2); auto.
Qed.

Lemma conditional_total t v : In v (ops_of c t) -> exists l, ev (fun k => conditional_outputs k g v) l.
Proof.
  destruct (br_acyclic _ _ _ BR) as [rank Hr].
  assert (K : forall m t v, rank t <= m -> In v (ops_of c t) -> exists l, ev (fun k => conditional_outputs k g v) l).
  2: { intros H. apply (K (rank t) t v); auto. }
  clear t v. induction m as [|m IH]; intros t v Lt Kv.
  all: destruct (ev_map (fun k => conditional_outputs k g) (filter (fun w => is_phi (op_of g w)) (sort_names (cons_of g v)))) as (r & Hr').
  all: try (intros w Hw; apply (phi_consumer c e all BR) in Hw; destruct Hw as [Ow Iw]; destruct (phi_arg c e all BR v w t Ow Iw Kv) as (t1 & Kw & Et);
    assert (Rk : rank t1 < rank t) by (apply Hr; rewrite Et; now left)).
  1: lia.
  2: apply (IH t1 w); auto; lia.
  all: eexists; apply ev_shift; cbn [conditional_outputs]; evb r; [exact Hr'|apply ev_const].
Qed.
Lemma inline_total t v : In v (ops_of c t) -> exists l, ev (fun k => should_inline_constant k g v) l.
Proof.
  revert t v. apply (value_ind (fun v => exists l, ev (fun k => should_inline_constant k g v) l)). intros t v Kv IH.
  pose proof (wr_form _ _ _ WR t v Kv) as W. unfold has_form in W.
  destruct (op_of g v) eqn:Ov; try (exists false; apply ev_shift; cbn [should_inline_constant]; rewrite Ov; apply ev_const).
  - destruct (args g v) as [|a [|]] eqn:Ea; try discriminate. destruct (IH ltac:(congruence) a) as (l & Hl); [now left|]. exists l. apply ev_shift. cbn [should_inline_constant]. rewrite Ov, Ea. exact Hl.
  - destruct l; (eexists; apply ev_shift; cbn [should_inline_constant]; rewrite Ov; apply ev_const).
Qed.

(** A set of blocks that use nothing else, and whose phi functions are declared. *)
Definition closed (W : list nat) : Prop := forall u v a, In u W -> In v (ops_of c u) -> op_of g v <> OPhi -> In a (args g v) -> exists u', In u' W /\ In a (ops_of c u').
Definition phis (W : list nat) (d : list name) : Prop := forall u v, In u W -> In v (ops_of c u) -> declares_phi c v = true -> declared d v = true.

Lemma argument_total W d w t a p : closed W -> phis W d -> In w (ops_of c t) -> In t W -> op_of g w <> OPhi -> In a (args g w) ->
  (forall key, op_of g a <> OOutReq key) -> (control (op_of g a) = false -> exists x, ev (fun k => visit_value N g d k a) x) ->
  exists x, ev (fun k => visit_argument N g d (visit_value N g d k) p a) x.
Proof.
  intros CW PW Kw Ht Np Ia Nq IH. unfold visit_argument. destruct (declared d a) eqn:Da; [eexists; apply ev_const|].
  assert (Ca : control (op_of g a) = false).
  { destruct (wr_operand _ _ _ WR t w a Kw Ia) as (N1 & N2 & _). destruct (op_of g a) as [| | | | | | | | | | | | | |key| |u key] eqn:Oa; auto; try congruence.
    exfalso. destruct (CW t w a Ht Kw Np Ia) as (u & Hu & Ka). rewrite (PW u a Hu Ka) in Da; [discriminate|]. now apply (declares_read c e all BR a w). }
  destruct (IH Ca) as (x & Hx). destruct p as [q|]; [|exists x; exact Hx]. destruct (operation_precedence (op_of g a) <=? q); [|exists x; exact Hx].
  exists (AParen x). evb x; [exact Hx|apply ev_const].
Qed.
Lemma read_total s t i : i < elements t -> exists x, read_argument s t i = Ok x.
Proof.
  intros L. destruct t as [|rows cols|l]; cbn [elements read_argument] in *.
  - replace i with 0 by lia. eexists. reflexivity.
  - apply Nat.ltb_lt in L. rewrite L. eexists. reflexivity.
  - destruct (nth_error l i) eqn:E; [eexists; reflexivity|]. apply nth_error_None in E. lia.
Qed.
Lemma visit_total W d : closed W -> phis W d -> forall t v, In v (ops_of c t) -> In t W -> control (op_of g v) = false -> exists x, ev (fun k => visit_value N g d k v) x.
Proof.
  intros CW PW.
  enough (K : forall t v, In v (ops_of c t) -> (exists t, In v (ops_of c t) /\ In t W) -> control (op_of g v) = false -> exists x, ev (fun k => visit_value N g d k v) x) by (intros t v Kv Ht; apply (K t v Kv); eauto).
  apply (value_ind (fun v => (exists t, In v (ops_of c t) /\ In t W) -> control (op_of g v) = false -> exists x, ev (fun k => visit_value N g d k v) x)).
  intros t0 v _ IH (t & Kv & Ht) Cv. assert (Np : op_of g v <> OPhi) by (intros E; rewrite E in Cv; discriminate). specialize (IH Np).
  assert (Arg : forall p a, In a (args g v) -> exists x, ev (fun k => visit_argument N g d (visit_value N g d k) p a) x).
  { intros p a Ia. apply (argument_total W d v t a p); auto.
    - intros key Oa. destruct (wr_operand _ _ _ WR t v a Kv Ia) as (_ & _ & N3). rewrite (N3 key Oa) in Cv. discriminate.
    - intros Ca. apply IH; auto. destruct (CW t v a Ht Kv Np Ia) as (u & Hu & Ka). eauto. }
  assert (Args : forall p, exists r, ev (fun k => mapM (visit_argument N g d (visit_value N g d k) p) (args g v)) r) by (intros p; apply ev_map; auto).
  pose proof (wr_form _ _ _ WR t v Kv) as W1. unfold has_form in W1.
  destruct (op_of g v) eqn:Ov; try discriminate Cv; try contradiction.
  - destruct (Args (Some addition)) as (r & Hr). exists (AAdd r). apply ev_shift. cbn [visit_value]. rewrite Ov. evb r; [exact Hr|apply ev_const].
  - destruct (Args None) as (r & Hr). eexists. apply ev_shift. cbn [visit_value]. rewrite Ov. evb r; [exact Hr|apply ev_const].
  - destruct (Args None) as (r & Hr). eexists. apply ev_shift. cbn [visit_value]. rewrite Ov. evb r; [exact Hr|apply ev_const].
  - destruct (args g v) as [|a [|]] eqn:Ea; try discriminate. destruct (Arg None a ltac:(now left)) as (x & Hx). eexists. apply ev_shift. cbn [visit_value]. rewrite Ov, Ea.
    evb x; [exact Hx|apply ev_const].
  - destruct (args g v) as [|a [|b [|]]] eqn:Ea; try discriminate. destruct (Arg None a ltac:(now left)) as (x & Hx), (Arg None b ltac:(right; now left)) as (y & Hy).
    eexists. apply ev_shift. cbn [visit_value]. rewrite Ov, Ea. evb x; [exact Hx|]. evb y; [exact Hy|apply ev_const].
  - destruct (args g v) as [|q [|a [|b [|]]]] eqn:Ea; try discriminate.
    destruct (Arg (Some ternary) q ltac:(now left)) as (z & Hz), (Arg (Some ternary) a ltac:(right; now left)) as (x & Hx), (Arg (Some ternary) b ltac:(right; right; now left)) as (y & Hy).
    eexists. apply ev_shift. cbn [visit_value]. rewrite Ov, Ea. evb z; [exact Hz|]. evb x; [exact Hx|]. evb y; [exact Hy|apply ev_const].
  - destruct (args g v) as [|a [|]] eqn:Ea; try discriminate. destruct (Arg None a ltac:(now left)) as (x & Hx). exists x. apply ev_shift. cbn [visit_value]. rewrite Ov, Ea. exact Hx.
  - destruct (args g v) as [|a [|b [|]]] eqn:Ea; try discriminate. destruct (Arg (Some multiplication) a ltac:(now left)) as (x & Hx), (Arg (Some multiplication) b ltac:(right; now left)) as (y & Hy).
    eexists. apply ev_shift. cbn [visit_value]. rewrite Ov, Ea. evb x; [exact Hx|]. evb y; [exact Hy|apply ev_const].
  - destruct W1 as (a & Ea & W1). rewrite Ea in *. destruct (ty_of g a) eqn:Ty; try contradiction.
    + destruct W1 as [-> Ca]. destruct (IH a ltac:(now left)) as (x & Hx); auto.
      { destruct (CW t v a Ht Kv ltac:(congruence)) as (u & Hu & Ka); [rewrite Ea; now left|eauto]. }
      exists x. apply ev_shift. cbn [visit_value]. rewrite Ov, Ea, Ty. cbn [Nat.eqb]. exact Hx.
    + destruct (Arg None a ltac:(now left)) as (x & Hx). apply Nat.ltb_lt in W1. eexists. apply ev_shift. cbn [visit_value]. rewrite Ov, Ea, Ty, W1. evb x; [exact Hx|apply ev_const].
  - assert (exists x, visit_load N l = Ok x) as (x & Hx).
    { destruct l; try (eexists; reflexivity); cbn [visit_load].
      - destruct W1 as (s & ty & Es & L). rewrite Es. now apply read_total.
      - destruct W1 as ((s & ty) & Es). rewrite Es. eexists. reflexivity. }
    exists x. apply ev_shift. cbn [visit_value]. rewrite Ov, Hx. apply ev_const.
  - destruct (Args (Some multiplication)) as (r & Hr). apply Nat.leb_le in W1. eexists. apply ev_shift. cbn [visit_value]. rewrite Ov, W1. evb r; [exact Hr|apply ev_const].
  - destruct (args g v) as [|a [|]] eqn:Ea; try discriminate. destruct (Arg (Some multiplication) a ltac:(now left)) as (x & Hx). eexists. apply ev_shift. cbn [visit_value]. rewrite Ov, Ea.
    evb x; [exact Hx|apply ev_const].
Qed.

(** The operations of a block. *)
Lemma phis_mono W d d' : phis W d -> (forall v, declared d v = true -> declared d' v = true) -> phis W d'.
Proof. intros H M u v Hu Kv Dv. apply M. now apply (H u v). Qed.
Lemma block_total W t : closed W -> In t W -> forall l d, incl l (ops_of c t) -> phis W d -> exists r, ev (fun k => block_operations N c k d l) r.
Proof.
  intros CW Ht. induction l as [|v l IH]; intros d Hi PD; [eexists; apply ev_const|].
  assert (Kv : In v (ops_of c t)) by (apply Hi; now left).
  assert (Hi' : incl l (ops_of c t)) by (intros x Hx; apply Hi; now right).
  destruct (control (op_of g v)) eqn:Cv.
  - destruct (IH d Hi' PD) as (r & Hr). exists r. cbn [block_operations]. destruct (op_of g v); try discriminate Cv; exact Hr.
  - destruct (conditional_total t v Kv) as (ph & Hp), (inline_total t v Kv) as (inl & Hl).
    set (needs := is_argument_read (op_of g v) || (negb inl && ((1 <? length (filter (fun x => negb (is_phi (op_of g x))) (cons_of g v))) || (1 <? length ph)))).
    set (d1 := if needs then v :: d else d).
    assert (PD1 : phis W d1). { apply (phis_mono W d); auto. intros x Dx. unfold d1. destruct needs; auto. rewrite declared_cons, Dx. apply orb_true_r. }
    destruct (visit_total W d1 CW PD1 t v Kv Ht Cv) as (x & Hx). destruct (IH d1 Hi' PD1) as ([[ss asg] d2] & Hr).
    eexists. cbn [block_operations].
    apply (ev_ext _ (fun k => let* phis := conditional_outputs k g v in
            let non_phi := length (filter (fun x => negb (is_phi (op_of g x))) (cons_of g v)) in
            let* inline := should_inline_constant k g v in
            let needs := is_argument_read (op_of g v) || (negb inline && ((1 <? non_phi) || (1 <? length phis))) in
            let d1 := if needs then v :: d else d in
            let* rhs := visit_value N g d1 k v in
            let rhs1 := if needs then AVar (vname N v) else rhs in
            let* r := block_operations N c k d1 l in
            let '(ss, asg, d2) := r in
            Ok ((if needs then [SDeclare (vname N v) (Some rhs)] else []) ++ ss,
                map (fun p => (vname N p, rhs1)) phis ++ asg, d2))).
    { intros k. destruct (op_of g v); try discriminate Cv; reflexivity. }
    evb ph; [exact Hp|]. cbv zeta. evb inl; [exact Hl|]. fold needs. fold d1. evb x; [exact Hx|]. evb (ss, asg, d2); [exact Hr|]. cbv beta iota. apply ev_const.
Qed.
Lemma output_total W t d : closed W -> In t W -> phis W d -> forall l, incl l (ops_of c t) ->
  exists r, ev (fun k => output_operations N outs c k d (match next t with [] => true | _ => false end) l) r.
Proof.
  intros CW Ht PD. induction l as [|v l IH]; intros Hi; [eexists; apply ev_const|].
  assert (Kv : In v (ops_of c t)) by (apply Hi; now left). destruct IH as (r & Hr); [intros x Hx; apply Hi; now right|].
  cbn [output_operations]. pose proof (wr_form _ _ _ WR t v Kv) as W1. unfold has_form in W1. destruct (op_of g v) eqn:Ov; try (exists r; exact Hr).
  assert (L1 : length (args g v) = 1) by (destruct usage as [|[|[|u]]]; tauto). destruct (args g v) as [|a [|]] eqn:Ea; try discriminate.
  destruct (argument_total W d v t a None) as (x & Hx); auto; try congruence.
  { rewrite Ea. now left. }
  { intros k Oa. destruct (wr_operand _ _ _ WR t v a Kv) as (_ & _ & N3); [rewrite Ea; now left|]. rewrite (N3 k Oa) in Ov. discriminate. }
  { intros Ca. destruct (CW t v a Ht Kv) as (u & Hu & Ka); [congruence|rewrite Ea; now left|]. now apply (visit_total W d CW PD u a). }
  assert (exists s, (if usage =? 2 then (if match next t with [] => true | _ => false end then Ok (SReturn x) else Throws)
                  else match outs key with Some ArgScalar => Ok (SOutput key x) | _ => Throws end) = Ok s) as (s & Es).
  { destruct (Nat.eqb_spec usage 2) as [->|N2].
    - rewrite (wr_return _ _ _ WR t v key Kv Ov). eexists. reflexivity.
    - destruct usage as [|[|[|u]]]; try congruence; destruct W1 as [_ ->]; eexists; reflexivity. }
  exists (s :: r). evb x; [exact Hx|]. rewrite Es. cbn [bind]. evb r; [exact Hr|apply ev_const].
Qed.

(** A region. *)
Definition ready (U L : list nat) (d : list name) : Prop := closed U /\ phis U d /\ phis L d.
Definition processed (b : nat) (k : option nat) (bs : list nat) : Prop :=
  forall U K d stop, single_entry next b bs -> k = hd_error K -> (forall x, In x stop <-> In x K) -> ready U (b :: K) d -> dominated c e U b ->
    (forall a, In a bs -> ~ In a U /\ ~ In a K) ->
    exists ss d', ev (fun f => process_block N outs c f b stop d) (ss, d') /\ grows c bs d d'.

Lemma closed_more U b : closed U -> dominated c e U b -> closed (b :: U).
Proof.
  intros CU DM u v a [<-|Hu] Kv Np Ia.
  - pose proof Kv as Kv'. apply in_split in Kv'. destruct Kv' as (x1 & x2 & E). destruct (operand_avail c e all BR U b DM x1 v x2 a E Np Ia) as [(u & Hu & Ka)|Ka].
    + exists u. split; auto. now right.
    + exists b. split; [now left|]. rewrite E, in_app_iff. auto.
  - destruct (CU u v a Hu Kv Np Ia) as (u' & Hu' & Ka). exists u'. split; auto. now right.
Qed.
Lemma block_done U K b d : ready U (b :: K) d -> dominated c e U b -> exists ss asg d1 saves,
  ev (fun k => block_operations N c k d (ops_of c b)) (ss, asg, d1) /\
  ev (fun k => output_operations N outs c k d1 (match next b with [] => true | _ => false end) (ops_of c b)) saves /\
  grows c [b] d d1 /\ ready (b :: U) K d1.
Proof.
  intros (CU & PU & PL) DM. pose proof (closed_more U b CU DM) as CB.
  assert (PB : phis (b :: U) d) by (intros u v [<-|Hu] Kv Dv; [apply (PL b v); auto; now left|now apply (PU u v)]).
  destruct (block_total (b :: U) b CB (or_introl eq_refl) (ops_of c b) d (incl_refl _) PB) as ([[ss asg] d1] & Hb).
  assert (G : grows c [b] d d1).
  { destruct Hb as [n Hn]. destruct (grows_block N c n (ops_of c b) d ss asg d1 (Hn n (le_n n))) as [G1 G2]. split; auto.
    intros v Dv. destruct (G2 v Dv); auto. right. exists b. split; auto. now left. }
  assert (PB1 : phis (b :: U) d1) by (apply (phis_mono _ d); auto; apply G).
  destruct (output_total (b :: U) b d1 CB (or_introl eq_refl) PB1 (ops_of c b) (incl_refl _)) as (saves & Hs).
  exists ss, asg, d1, saves. split; auto. split; auto. split; auto. split; auto. split; auto.
  apply (phis_mono K d); [|apply G]. intros u v Hu. apply PL. now right.
Qed.
Lemma ready_grows bs U L d d' : ready U L d -> grows c bs d d' -> ready U L d'.
Proof. intros (C & P1 & P2) [G _]. split; auto. split; now apply (phis_mono _ d). Qed.
Lemma ready_cons U L d x : ready U L d -> In x L \/ ~ has_phi c x -> ready U (x :: L) d.
Proof.
  intros (C & P1 & P2) H. split; auto. split; auto. intros u v [<-|Hu] Kv Dv; [|now apply (P2 u v)].
  destruct H as [H|H]; [now apply (P2 x v)|]. exfalso. apply H. exists v. split; auto. now apply declares_is_phi.
Qed.

Lemma region_total b k bs : region next b k bs -> processed b k bs.
Proof.
  induction 1 as [m|b E|b x k bs E H IH Nb Nk|b l rr j k bl br bj E Hl IHl Hr IHr Hj IHj Inj ND Nm];
    intros U K d stop SE Ek Hs RD DM Ap.
  - exists [], d. split; [|split; auto]. apply ev_shift. cbn [process_block].
    assert (Im : In m stop) by (apply Hs; destruct K; [discriminate|injection Ek as ->; now left]). apply in_set_spec in Im. rewrite Im. apply ev_const.
  - destruct (block_done U K b d RD DM) as (ss & asg & d1 & saves & Hb & Ho & G & _). rewrite E in Ho.
    eexists _, d1. split; [|exact G]. apply ev_shift. cbn [process_block]. rewrite in_set_false by (rewrite Hs; apply Ap; now left). rewrite E.
    evb (ss, asg, d1); [exact Hb|]. cbv beta iota. evb saves; [exact Ho|]. apply ev_const.
  - assert (NbK : ~ In b K) by (apply Ap; now left).
    destruct (block_done U K b d RD DM) as (ss & asg & d1 & saves & Hb & Ho & G & RD1). rewrite E in Ho.
    assert (Ib : In b all) by (apply (next_in c e all BR b x); rewrite E; now left).
    pose proof (br_jump _ _ _ BR b Ib) as J. unfold jumps_match in J. rewrite E in J. destruct J as (w & Ew & Nw).
    assert (Ph : has_phi c x -> bs = [] /\ k = Some x) by (apply (phi_step c e all BR b x k bs); auto).
    destruct (IH (b :: U) K d1 stop) as (sn & dn & Hn & Gn); auto.
    { now apply (entry_step next b x k bs). }
    { apply ready_cons; auto. assert (In x bs \/ Some x = k) as [I|I] by (clear -H; inversion H; subst; auto; left; now left).
      - right. intros Hp. destruct (Ph Hp) as [-> _]. contradiction.
      - left. rewrite Ek in I. destruct K; [discriminate|]. injection I as ->. now left. }
    { apply dominated_next; auto. rewrite E. now left. }
    { intros a Ha. destruct (Ap a (or_intror Ha)) as [N1 N2]. split; auto. intros [<-|]; auto. }
    eexists _, dn. split.
    + apply ev_shift. cbn [process_block]. rewrite in_set_false by (rewrite Hs; auto). rewrite E.
      destruct (ops_of c b) as [|o0 os] eqn:Eo; [unfold last_op in Ew; rewrite Eo in Ew; discriminate|].
      evb (ss, asg, d1); [exact Hb|]. cbv beta iota. evb saves; [exact Ho|]. rewrite Ew. cbn [bind].
      replace (is_jump (op_of g w)) with false by (destruct (op_of g w); cbn; congruence). evb (sn, dn); [exact Hn|]. cbn [fst snd]. apply ev_const.
    + apply (grows_trans c [b] bs (b :: bs) d d1 dn); auto; [intros u [<-|[]]; now left|intros u Hu; now right].
  - assert (NbK : ~ In b K) by (apply Ap; now left).
    destruct (block_done U K b d RD DM) as (ss & asg & d1 & saves & Hb & Ho & G & RD1). rewrite E in Ho.
    assert (Ib : In b all) by (apply (next_in c e all BR b l); rewrite E; now left).
    pose proof (br_jump _ _ _ BR b Ib) as J. unfold jumps_match in J. rewrite E in J. destruct J as (w & Ew & Ow).
    pose proof (in_last c w b Ew) as Kw.
    pose proof (wr_form _ _ _ WR b w Kw) as W1. unfold has_form in W1. rewrite Ow in W1. destruct (args g w) as [|cond [|]] eqn:Ea; try discriminate. clear W1.
    destruct (C34_structured c b l rr j bl br bj (br_acyclic _ _ _ BR) E Hl Hr ND Inj) as (F & HF).
    destruct (parts b bl br bj ND) as ((B1 & B2 & B3) & P1 & P2 & P3).
    assert (Ij : In j (b :: bl ++ br ++ bj)) by (right; rewrite !in_app_iff; auto).
    assert (Il : forall a, In a bl -> In a (b :: bl ++ br ++ bj)) by (intros a Ha; right; rewrite !in_app_iff; auto).
    assert (Ir : forall a, In a br -> In a (b :: bl ++ br ++ bj)) by (intros a Ha; right; rewrite !in_app_iff; auto).
    assert (Ijj : forall a, In a bj -> In a (b :: bl ++ br ++ bj)) by (intros a Ha; right; rewrite !in_app_iff; auto).
    assert (NjK : ~ In j K) by now apply Ap.
    destruct (no_phi_branch c e all BR b l rr E) as [Npl Npr].
    set (d2 := phi_declarations c j ++ d1).
    pose proof (grows_phis c j d1) as Gp. fold d2 in Gp.
    assert (RD2 : ready (b :: U) (j :: K) d2).
    { destruct (ready_grows [j] _ _ _ _ RD1 Gp) as (C2 & PU2 & PK2). split; auto. split; auto. intros u v [<-|Hu] Kv Dv; [|now apply (PK2 u v)].
      unfold d2. rewrite declared_app. replace (declared (phi_declarations c j) v) with true; auto. symmetry. apply declared_in. unfold phi_declarations. apply filter_In. auto. }
    assert (Hs1 : forall y, In y (insert_set j stop) <-> In y (j :: K)).
    { intros y. unfold insert_set. rewrite in_set_false by (rewrite Hs; auto). cbn [In]. now rewrite Hs. }
    assert (SEj : single_entry next j bj) by (apply (entry_join next b l rr j k bl br bj); auto).
    assert (SEl : single_entry next l bl) by (apply (entry_left next b l rr j k bl br bj); auto).
    assert (SEr : single_entry next rr br) by (apply (entry_right next b l rr j k bl br bj); auto).
    assert (Apl : forall a, In a bl -> ~ In a (b :: U) /\ ~ In a (j :: K)).
    { intros a Ha. destruct (Ap a (Il a Ha)) as [N1 N2]. split; intros [<-|I]; auto. exact (P2 j Ha Inj). }
    assert (Apr : forall a, In a br -> ~ In a (b :: U) /\ ~ In a (j :: K)).
    { intros a Ha. destruct (Ap a (Ir a Ha)) as [N1 N2]. split; intros [<-|I]; auto. exact (P3 j Ha Inj). }
    destruct (IHl (b :: U) (j :: K) d2 (insert_set j stop)) as (sl & dl & Pl & Gl); auto.
    { apply ready_cons; auto. }
    { apply dominated_next; auto. rewrite E. now left. }
    assert (RDl : ready (b :: U) (j :: K) dl) by now apply (ready_grows bl _ _ d2).
    assert (Mid : exists s dm, ev (fun f => match op_of g cond with
          | OOutReq key => match outs key with Some _ => Ok (SOptional key sl, dl) | None => Throws end
          | _ => let* rr := process_block N outs c f rr (insert_set j stop) dl in
                 let* x := visit_argument N g (snd rr) (visit_value N g (snd rr) f) None cond in
                 Ok (SBranch x sl (fst rr), snd rr) end) (s, dm) /\ grows c (bl ++ br) dl dm).
    { destruct (match op_of g cond with OOutReq key => true | _ => false end) eqn:Q.
      - destruct (op_of g cond) eqn:Oc; try discriminate Q.
        destruct (proj1 RD1 b w cond (or_introl eq_refl) Kw) as (uc & Huc & Kc); [congruence|rewrite Ea; now left|].
        pose proof (wr_form _ _ _ WR uc cond Kc) as W1. unfold has_form in W1. rewrite Oc in W1. destruct W1 as (ty & Et). rewrite Et.
        exists (SOptional s sl), dl. split; [apply ev_const|split; auto].
      - destruct (IHr (b :: U) (j :: K) dl (insert_set j stop)) as (sr & dr & Pr & Gr); auto.
        { apply ready_cons; auto. }
        { apply dominated_next; auto. rewrite E. right. now left. }
        assert (RDr : ready (b :: U) (j :: K) dr) by now apply (ready_grows br _ _ dl).
        destruct (proj1 RD1 b w cond (or_introl eq_refl) Kw) as (uc & Huc & Kc); [congruence|rewrite Ea; now left|].
        destruct (argument_total (b :: U) dr w b cond None (proj1 RDr) (proj1 (proj2 RDr)) Kw (or_introl eq_refl)) as (x & Hx); [congruence|rewrite Ea; now left| | |].
        { intros key Oc. rewrite Oc in Q. discriminate. }
        { intros Cc. apply (visit_total (b :: U) dr (proj1 RDr) (proj1 (proj2 RDr)) uc cond); auto. }
        exists (SBranch x sl sr), dr. split.
        + match goal with |- ev _ ?z => apply (ev_ext _ (fun f => let* rr := process_block N outs c f rr (insert_set j stop) dl in
                 let* x := visit_argument N g (snd rr) (visit_value N g (snd rr) f) None cond in
                 Ok (SBranch x sl (fst rr), snd rr)) z) end.
          { intros f. destruct (op_of g cond); try discriminate Q; reflexivity. }
          evb (sr, dr); [exact Pr|]. cbn [fst snd]. evb x; [exact Hx|apply ev_const].
        + destruct Gr as [G1 G2]. split; auto. intros v Dv. destruct (G2 v Dv) as [|(u & Hu & Kv)]; auto. right. exists u. split; auto. apply in_app_iff. auto. }
    destruct Mid as (s & dm & Hm & Gm).
    assert (RDm : ready (b :: U) (j :: K) dm) by now apply (ready_grows (bl ++ br) _ _ dl).
    destruct (IHj (b :: U) K dm stop) as (sj & dj & Pj & Gj); auto.
    { apply (dominated_join c e U b l rr j k bl br bj); auto. intros x Hx. now apply Ap. }
    { intros a Ha. destruct (Ap a (Ijj a Ha)) as [N1 N2]. split; auto. intros [<-|]; auto. }
    eexists _, dj. split.
    + apply ev_shift. cbn [process_block]. rewrite in_set_false by (rewrite Hs; auto). rewrite E.
      destruct (ops_of c b) as [|o0 os] eqn:Eo; [contradiction|].
      evb (ss, asg, d1); [exact Hb|]. cbv beta iota. evb saves; [exact Ho|]. rewrite Ew. cbn [bind]. rewrite Ow. cbn [is_jump].
      evb j; [exists F; intros k' L; apply HF; lia|]. cbv zeta. fold d2. evb (sl, dl); [exact Pl|]. rewrite Ea. cbn [fst snd].
      evb (s, dm); [exact Hm|]. rewrite erase_insert by (rewrite Hs; auto). cbn [fst snd]. evb (sj, dj); [exact Pj|]. cbn [fst snd]. apply ev_const.
    + apply (grows_trans c [b] (bl ++ br ++ bj) _ d d1 dj); auto; [intros u [<-|[]]; now left|intros u Hu; now right|].
      apply (grows_trans c [j] (bl ++ br ++ bj) _ d1 d2 dj); auto; [intros u [<-|[]]; rewrite !in_app_iff; auto|].
      apply (grows_trans c bl (bl ++ br ++ bj) _ _ dl dj); auto; [intros u Hu; rewrite !in_app_iff; auto|].
      apply (grows_trans c (bl ++ br) bj _ _ dm dj); auto; intros u Hu; rewrite !in_app_iff in *; tauto.
Qed.
Lemma create_total : first_block c = Ok e -> exists n ss, forall fuel, n <= fuel -> create_ast N outs c fuel = Ok ss.
Proof.
  intros F. destruct (region_total e None all (br_region _ _ _ BR) [] [] [] []) as (ss & d' & (n & H) & _); auto.
  - apply (entry_all c e all BR).
  - intros x. split; intros [].
  - split; [intros u v a []|]. split; [intros u v []|]. intros u v [<-|[]] Kv Dv. exfalso. apply (no_phi_entry c e all BR). exists v. split; auto. now apply declares_is_phi.
  - intros u _ Nu. apply avoids_here. congruence.
  - exists n, ss. intros fuel L. unfold create_ast. rewrite F. cbn [bind]. rewrite H by auto. reflexivity.
Qed.
End Total.
