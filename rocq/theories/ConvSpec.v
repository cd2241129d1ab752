(** Executing a program with branches, said without reference to how it was made. *)
From Coq Require Import String List Arith ZArith Bool.
From Verif Require Import Outcome IrModel IrSpec CfgModel CfgSpec.
Import ListNotations.
Open Scope nat_scope.

(** Values can be tested, and a select is its second operand or its third. *)
Record selecting (A : algebra) := {
  truth : D A -> bool;
  sem_cond : forall c a b, sem A OCond [c; a; b] = if truth c then a else b
}.
Arguments truth {A} s d.

Section Run.
  Variable A : algebra.
  Variable S : selecting A.
  Variable c : cfg.
  Notation g := (c_vals c).

  (** What was computed so far, and what was handed out: usage, key and value. *)
  Definition mstate : Type := env A * list (nat * string * D A).

  (** The operands an operation reads: a phi function reads those computed in the block we came from (parents are
      numbered from 1). *)
  Definition sources (from : option nat) (v : name) : list name :=
    match op_of g v, from with
    | OPhi, Some p => filter (fun a => parent g a =? 1 + p) (args g v)
    | OPhi, None => []
    | _, _ => args g v
    end.
  Definition result (o : op) (l : list (D A)) : option (D A) :=
    match o, l with
    | OPhi, [x] => Some x
    | OPhi, _ => None
    | _, _ => Some (sem A o l)
    end.
  Definition handed (o : op) (d : D A) : list (nat * string * D A) :=
    match o with OSave u k => [(u, k, d)] | _ => [] end.
  Fixpoint run_block (from : option nat) (ops : list name) (s : mstate) : option mstate :=
    match ops with
    | [] => Some s
    | v :: t =>
        match read_all A (fst s) (sources from v) with
        | Some xs =>
            match result (op_of g v) xs with
            | Some d => run_block from t (set_env A (fst s) v d, snd s ++ handed (op_of g v) d)
            | None => None
            end
        | None => None
        end
    end.
  (** Where to go next: with two descendants the last operation is a jump, to the first if its operand is true. *)
  Definition next_block (b : nat) (e : env A) : option (option nat) :=
    match desc c b with
    | [] => Some None
    | [n] => Some (Some n)
    | [l; r] =>
        match rev (ops_of c b) with
        | v :: _ =>
            match op_of g v, args g v with
            | OJump, [a] => match e a with Some d => Some (Some (if truth S d then l else r)) | None => None end
            | _, _ => None
            end
        | [] => None
        end
    | _ => None
    end.
  Fixpoint run (fuel : nat) (from : option nat) (b : nat) (s : mstate) : option mstate :=
    match fuel with
    | O => None
    | Datatypes.S fuel =>
        match run_block from (ops_of c b) s with
        | Some s' =>
            match next_block b (fst s') with
            | Some (Some n) => run fuel (Some b) n s'
            | Some None => Some s'
            | None => None
            end
        | None => None
        end
    end.
  Definition start : mstate := (no_values A, []).
End Run.

(** The select program as the converter expects it: all values are of the one block, every save is an operation of the
    block, of one of the three kinds of outputs, and no operation reads it. *)
Definition outputs_ok (g : graph) (ops : list name) : Prop :=
  (forall v, parent g v = 0) /\
  forall v u k, v < g_next g -> op_of g v = OSave u k ->
    In v ops /\ u < 3 /\ forall w, ~ In v (args g w).

(** No operation is left whose value nothing needs, as after the simplifications (C31). *)
Definition no_dead (g : graph) (ops : list name) : Prop :=
  forall v, In v ops -> is_sink (op_of g v) = true \/ exists c, In c ops /\ In v (args g c).

(** What the program without branches hands out, one entry for every save; and the entries a caller gets, who asks for
    some of the optional outputs. *)
Definition outputs (A : algebra) (g : graph) (e : env A) (ops : list name) : list (nat * string * D A) :=
  flat_map (fun v => match op_of g v, args g v with
                     | OSave u k, [a] => match e a with Some d => [(u, k, d)] | None => [] end
                     | _, _ => []
                     end) ops.
Definition wanted {A : algebra} (S : selecting A) (z : nat * string * D A) : bool :=
  match z with
  | (0, k, _) => truth S (sem A (OOutReq k) [])
  | _ => true
  end.

(** The blocks an execution goes through from [a] to [b]. *)
Inductive leads (next : nat -> list nat) : nat -> nat -> list nat -> Prop :=
| leads_here b : leads next b b [b]
| leads_next a x b p : In x (next a) -> leads next x b p -> leads next a b (a :: p).
