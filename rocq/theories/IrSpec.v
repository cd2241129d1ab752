(** What it means for a pass over one block to be correct, said without reference to how the passes work. *)
From Coq Require Import String List Arith ZArith Bool Ring_theory Permutation.
From Verif Require Import Outcome IrModel.
Import ListNotations.
Open Scope nat_scope.

(** An interpretation of the operations in a commutative ring: additions, multiplications and negations are those
    of the ring, the constants 1 and -1 are its 1 and -1 and casts between numeric types keep them; a copy is its
    operand and a save hands its operand out.  Every other operation (divisions, comparisons, selects, calls, other
    constants and inputs...) is an arbitrary function of its operands. *)
Record algebra := {
  D : Type;
  d0 : D; d1 : D;
  dadd : D -> D -> D; dmul : D -> D -> D; dsub : D -> D -> D; dopp : D -> D;
  d_ring : ring_theory d0 d1 dadd dmul dsub dopp (@eq D);
  sem : op -> list D -> D;
  sem_add : forall l, sem OAdd l = fold_right dadd d0 l;
  sem_mul : forall l, sem OMul l = fold_right dmul d1 l;
  sem_neg : forall x, sem ONeg [x] = dopp x;
  sem_one : sem (OLoad (LInt 1)) [] = d1;
  sem_minus_one : sem (OLoad (LInt (-1))) [] = dopp d1;
  sem_cast_one : forall t, t <> NBool -> sem (OCast t) [d1] = d1;
  sem_cast_minus_one : forall t, t <> NBool -> sem (OCast t) [dopp d1] = dopp d1;
  sem_copy : forall x, sem OCopy [x] = x;
  sem_save : forall u k x, sem (OSave u k) [x] = x
}.

Section Exec.
  Variable A : algebra.

  (** Running the operations of a block one after the other.  [None]: an operand was not computed yet. *)
  Definition env := name -> option (D A).
  Definition no_values : env := fun _ => None.
  Definition set_env (e : env) (n : name) (d : D A) : env := fun m => if m =? n then Some d else e m.
  Fixpoint read_all (e : env) (l : list name) : option (list (D A)) :=
    match l with
    | [] => Some []
    | a :: t => match e a, read_all e t with Some x, Some xs => Some (x :: xs) | _, _ => None end
    end.
  Fixpoint exec (g : graph) (ops : list name) (e : env) : option env :=
    match ops with
    | [] => Some e
    | v :: t => match read_all e (args g v) with
                | Some xs => exec g t (set_env e v (sem A (op_of g v) xs))
                | None => None
                end
    end.

  (** What the program hands out under an output key. *)
  Definition writes (g : graph) (ops : list name) (e : env) (u : nat) (k : string) (d : D A) : Prop :=
    exists v a, In v ops /\ op_of g v = OSave u k /\ args g v = [a] /\ e a = Some d.
End Exec.

(** Two programs that compute the same outputs in every interpretation, and neither of which gets stuck. *)
Definition same_outputs (p q : graph * list name) : Prop :=
  forall A : algebra, exists e e',
    exec A (fst p) (snd p) (no_values A) = Some e /\
    exec A (fst q) (snd q) (no_values A) = Some e' /\
    forall u k d, writes A (fst p) (snd p) e u k d <-> writes A (fst q) (snd q) e' u k d.

(** [a] comes before [v] in the list. *)
Definition before (l : list name) (a v : name) : Prop := exists l1 l2, l = l1 ++ v :: l2 /\ In a l1.

(** Every operation comes after its operands. *)
Definition ordered (g : graph) (ops : list name) : Prop :=
  forall v a, In v ops -> In a (args g v) -> before ops a v.

(** The consumer vectors are exactly the uses. *)
Definition def_use (g : graph) : Prop :=
  forall v c, count_occ Nat.eq_dec (cons_of g v) c = count_occ Nat.eq_dec (args g c) v.

Fixpoint sorted_names (l : list name) : Prop :=
  match l with
  | x :: (y :: _) as t => x <= y /\ sorted_names t
  | _ => True
  end.

(** The type of a value is determined by its operation and the types of its operands. *)
Record typing := {
  ft : op -> list vtype -> vtype;
  ft_int : forall z, ft (OLoad (LInt z)) [] = TScalar NInt;
  ft_cast : forall t a, ft (OCast t) [a] = TScalar t;
  ft_comm : forall o t l, commutative o = true -> ft o (TScalar t :: l) = TScalar t;
  ft_neg : forall t, ft ONeg [t] = t;
  ft_copy : forall t, ft OCopy [t] = t
}.

(** A block as the passes expect it, apart from its order:
    - the operations of the block are distinct values of the graph and belong to the block,
    - the consumer vectors are the uses; values that are not in the block consume nothing,
    - additions and multiplications have sorted operands, at least two, all of the same integer or float type,
    - the types follow from the operations,
    - every operation has as many operands as it needs,
    - there are no phi functions or jumps yet, and nothing is cast to boolean. *)
Record block_ok (T : typing) (g : graph) (block : nat) (ops : list name) : Prop := {
  bo_nodup : NoDup ops;
  bo_fresh : forall v, In v ops -> v < g_next g;
  bo_parent : forall v, In v ops -> parent g v = block;
  bo_def_use : def_use g;
  bo_dead : forall v, ~ In v ops -> args g v = [];
  bo_sorted : forall v, In v ops -> commutative (op_of g v) = true -> sorted_names (args g v);
  bo_many : forall v, In v ops -> commutative (op_of g v) = true -> 2 <= length (args g v);
  bo_scalar : forall v, In v ops -> commutative (op_of g v) = true ->
      exists t, ty_of g v = TScalar t /\ t <> NBool /\ forall a, In a (args g v) -> ty_of g a = TScalar t;
  bo_typed : forall v, In v ops -> ty_of g v = ft T (op_of g v) (map (ty_of g) (args g v));
  bo_arity : forall v, In v ops -> arity_ok (op_of g v) (length (args g v)) = true;
  bo_plain : forall v, In v ops -> op_of g v <> OPhi /\ op_of g v <> OJump /\ op_of g v <> OCast NBool
}.

Arguments bo_nodup {T} g block ops _.
Arguments bo_fresh {T} g block ops _.
Arguments bo_parent {T} g block ops _.
Arguments bo_def_use {T} g block ops _.
Arguments bo_dead {T} g block ops _.
Arguments bo_sorted {T} g block ops _.
Arguments bo_many {T} g block ops _.
Arguments bo_scalar {T} g block ops _.
Arguments bo_typed {T} g block ops _.
Arguments bo_arity {T} g block ops _.
Arguments bo_plain {T} g block ops _.

(** A straight-line program in dependency order. *)
Definition program (T : typing) (g : graph) (block : nat) (ops : list name) : Prop := block_ok T g block ops /\ ordered g ops.

(** What the outputs depend on. *)
Inductive live (g : graph) (ops : list name) : name -> Prop :=
| live_sink v : In v ops -> is_sink (op_of g v) = true -> live g ops v
| live_operand v c : live g ops c -> In v (args g c) -> live g ops v.

(** No two operations of the block other than saves compute the same thing from the same operands. *)
Definition no_duplicates (g : graph) (ops : list name) : Prop :=
  forall a c, In a ops -> In c ops -> is_sink (op_of g a) = false -> is_sink (op_of g c) = false ->
    op_of g a = op_of g c -> args g a = args g c -> a = c.

(** The dependency order in which each value is the one with the least name among those that could come next. *)
Definition tsorted (g : graph) (ops out : list name) : Prop :=
  forall l1 x l2, out = l1 ++ x :: l2 ->
    incl (args g x) l1 /\
    forall y, In y ops -> ~ In y l1 -> incl (args g y) l1 -> x <= y.
