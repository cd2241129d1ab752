(** Rotations of three-dimensional space. *)
From Coq Require Import List ZArith Reals.
From Verif Require Import QuatModel.
Open Scope R_scope.

Definition dot (a b : vec3) : R := v0 a * v0 b + v1 a * v1 b + v2 a * v2 b.
Definition cross (a b : vec3) : vec3 :=
  mkv (v1 a * v2 b - v2 a * v1 b) (v2 a * v0 b - v0 a * v2 b) (v0 a * v1 b - v1 a * v0 b).
Definition plus (a b : vec3) : vec3 := mkv (v0 a + v0 b) (v1 a + v1 b) (v2 a + v2 b).
Definition times (k : R) (a : vec3) : vec3 := mkv (k * v0 a) (k * v1 a) (k * v2 a).
(** The columns of a matrix, and its action on a vector: the combination of the columns. *)
Definition col0 (m : mat3) : vec3 := mkv (m00 m) (m10 m) (m20 m).
Definition col1 (m : mat3) : vec3 := mkv (m01 m) (m11 m) (m21 m).
Definition col2 (m : mat3) : vec3 := mkv (m02 m) (m12 m) (m22 m).
Definition act (m : mat3) (v : vec3) : vec3 := plus (times (v0 v) (col0 m)) (plus (times (v1 v) (col1 m)) (times (v2 v) (col2 m))).

(** A rotation: the columns are orthonormal and right-handed. *)
Definition rotation (m : mat3) : Prop :=
  dot (col0 m) (col0 m) = 1 /\ dot (col1 m) (col1 m) = 1 /\ dot (col2 m) (col2 m) = 1 /\
  dot (col0 m) (col1 m) = 0 /\ dot (col0 m) (col2 m) = 0 /\ dot (col1 m) (col2 m) = 0 /\
  dot (cross (col0 m) (col1 m)) (col2 m) = 1.

Definition unit_vec (v : vec3) : Prop := dot v v = 1.
Definition unit_quat (q : quat) : Prop := qw q * qw q + qx q * qx q + qy q * qy q + qz q * qz q = 1.

(** Turning [v] about the unit vector [k] by an angle: the part along [k] stays, the rest turns in its plane. *)
Definition turn (angle : R) (k v : vec3) : vec3 :=
  let along := times (dot k v) k in
  let rest := plus v (times (-1) along) in
  plus along (plus (times (cos angle) rest) (times (sin angle) (cross k v))).

Definition length (v : vec3) : R := sqrt (dot v v).
