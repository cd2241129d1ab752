(** Quaternions: components/core/wf/geometry/quaternion.h and quaternion.cc.

    Every component is a scalar expression in the code. Here it is the real number that the expression evaluates to:
    that the arithmetic, the functions and [where] keep values is the subject of C09, C10, C15, C16 and C46.
    [R] has a total division and square root, so the theorems state where denominators and radicands are fine. *)
From Coq Require Import List ZArith Reals Bool.
From Verif Require Import Outcome ExprSpec.
Import ListNotations.
Open Scope R_scope.

(** quaternion.h 15-20: elements in the order w, x, y, z. *)
Record quat := mkq { qw : R; qx : R; qy : R; qz : R }.
(** quaternion.h 23 *)
Definition q_identity : quat := mkq 1 0 0 0.
(** A matrix of three rows and three columns, or three rows and one column. *)
Record mat3 := mkm { m00 : R; m01 : R; m02 : R; m10 : R; m11 : R; m12 : R; m20 : R; m21 : R; m22 : R }.
Record vec3 := mkv { v0 : R; v1 : R; v2 : R }.

(** quaternion.h 26-32: a column vector of other than four rows is rejected. *)
Definition from_vector_wxyz (rows cols : Z) (q : list R) : outcome quat :=
  if negb (rows =? 4)%Z || negb (cols =? 1)%Z then Throws
  else match q with [w; x; y; z] => Ok (mkq w x y z) | _ => UB end.
(** quaternion.h 35-41 *)
Definition from_vector_xyzw (rows cols : Z) (q : list R) : outcome quat :=
  if negb (rows =? 4)%Z || negb (cols =? 1)%Z then Throws
  else match q with [x; y; z; w] => Ok (mkq w x y z) | _ => UB end.
(** quaternion.cc 21 *)
Definition to_vector_wxyz (q : quat) : list R := [qw q; qx q; qy q; qz q].
(** quaternion.cc 23 *)
Definition to_vector_xyzw (q : quat) : list R := [qx q; qy q; qz q; qw q].

(** quaternion.cc 30-32 *)
Definition squared_norm (q : quat) : R := qw q * qw q + qx q * qx q + qy q * qy q + qz q * qz q.
(** quaternion.cc 34 *)
Definition norm (q : quat) : R := sqrt (squared_norm q).
(** quaternion.h 78-81 *)
Definition normalized (q : quat) : quat := let n := norm q in mkq (qw q / n) (qx q / n) (qy q / n) (qz q / n).
(** quaternion.h 85 *)
Definition conjugate (q : quat) : quat := mkq (qw q) (- qx q) (- qy q) (- qz q).
(** quaternion.cc 36-39 *)
Definition inverse (q : quat) : quat :=
  let n2 := squared_norm q in mkq (qw q / n2) (qx q / - n2) (qy q / - n2) (qz q / - n2).
(** quaternion.cc 41 *)
Definition q_neg (q : quat) : quat := mkq (- qw q) (- qx q) (- qy q) (- qz q).
(** quaternion.cc 325-330 *)
Definition q_mul (a b : quat) : quat :=
  mkq (qw a * qw b - qx a * qx b - qy a * qy b - qz a * qz b)
      (qw a * qx b + qx a * qw b + qy a * qz b - qz a * qy b)
      (qw a * qy b + qy a * qw b + qz a * qx b - qx a * qz b)
      (qw a * qz b + qz a * qw b + qx a * qy b - qy a * qx b).

(** quaternion.cc 43-63 *)
Definition to_rotation_matrix (q : quat) : mat3 :=
  let x2 := qx q * 2 in let y2 := qy q * 2 in let z2 := qz q * 2 in
  let wx2 := x2 * qw q in let wy2 := y2 * qw q in let wz2 := z2 * qw q in
  let xx2 := x2 * qx q in let xy2 := y2 * qx q in let xz2 := z2 * qx q in
  let yy2 := y2 * qy q in let yz2 := z2 * qy q in let zz2 := z2 * qz q in
  mkm (1 - yy2 - zz2) (xy2 - wz2) (xz2 + wy2)
      (xy2 + wz2) (1 - xx2 - zz2) (yz2 - wx2)
      (xz2 - wy2) (yz2 + wx2) (1 - xx2 - yy2).

(** quaternion.cc 65-74 *)
Definition rotate (q : quat) (v : vec3) : vec3 :=
  let r := q_mul (q_mul q (mkq 0 (v0 v) (v1 v) (v2 v))) (conjugate q) in mkv (qx r) (qy r) (qz r).

(** quaternion.cc 76-81 *)
Definition from_angle_axis (angle vx vy vz : R) : quat :=
  let half := angle / 2 in let s := sin half in mkq (cos half) (vx * s) (vy * s) (vz * s).
(** quaternion.h 121-133 *)
Definition from_x_angle (angle : R) : quat := from_angle_axis angle 1 0 0.
Definition from_y_angle (angle : R) : quat := from_angle_axis angle 0 1 0.
Definition from_z_angle (angle : R) : quat := from_angle_axis angle 0 0 1.

(** quaternion.cc 90-115 *)
Definition from_rotation_vector (vx vy vz : R) (epsilon : option R) : quat :=
  let angle := sqrt (vx * vx + vy * vy + vz * vz) in
  let half := angle / 2 in
  let sinc_half := sin half / angle in
  let q := mkq (cos half) (vx * sinc_half) (vy * sinc_half) (vz * sinc_half) in
  match epsilon with
  | Some eps =>
      let small := normalized (mkq 1 (vx / 2) (vy / 2) (vz / 2)) in
      if Rlt_dec eps angle then q else small
  | None => q
  end.

(** quaternion.cc 126-151. [zero] is the answer of the zero test on the norm of the vector part. *)
Definition to_angle_axis (zero : bool) (q : quat) (epsilon : option R) : R * vec3 :=
  let n := sqrt (qx q * qx q + qy q * qy q + qz q * qz q) in
  let unit_x := mkv 1 0 0 in
  if zero then (0, unit_x)
  else
    let angle := atan2_R n (Rabs (qw q)) * 2 in
    let flipped := if Rlt_dec (qw q) 0 then - n else n in
    let v := mkv (qx q / flipped) (qy q / flipped) (qz q / flipped) in
    match epsilon with
    | Some eps => (if Rlt_dec eps n then angle else 0, if Rlt_dec eps n then v else unit_x)
    | None => (angle, v)
    end.

(** quaternion.cc 153-188 *)
Definition to_rotation_vector (q : quat) (epsilon : option R) (use_atan2 : bool) : vec3 :=
  let sign_w := if Rlt_dec (qw q) 0 then -1 else 1 in
  if use_atan2 then
    let n := sqrt (qx q * qx q + qy q * qy q + qz q * qz q) in
    let half := atan2_R n (Rabs (qw q)) in
    let angle_over_norm := (half * 2) / n in
    match epsilon with
    | Some eps =>
        let scale := if Rlt_dec eps n then angle_over_norm * sign_w else 2 * sign_w in
        mkv (scale * qx q) (scale * qy q) (scale * qz q)
    | None => mkv (qx q * angle_over_norm * sign_w) (qy q * angle_over_norm * sign_w) (qz q * angle_over_norm * sign_w)
    end
  else
    let w_pos := Rmin (qw q * sign_w) 1 in
    let x_pos := qx q * sign_w in let y_pos := qy q * sign_w in let z_pos := qz q * sign_w in
    let n := sqrt (1 - w_pos * w_pos) in
    let scale := 2 * acos w_pos / n in
    match epsilon with
    | Some eps =>
        let scale_safe := if Rlt_dec eps n then scale else 2 in
        mkv (scale_safe * x_pos) (scale_safe * y_pos) (scale_safe * z_pos)
    | None => mkv (scale * x_pos) (scale * y_pos) (scale * z_pos)
    end.

(** quaternion.cc 202-255 *)
Definition from_rotation_matrix (R : mat3) : quat :=
  let t0 := sqrt (1 + m00 R + m11 R + m22 R) in
  let q0 := mkq (t0 / 2) ((m21 R - m12 R) / (t0 * 2)) ((m02 R - m20 R) / (t0 * 2)) ((m10 R - m01 R) / (t0 * 2)) in
  let t1 := sqrt (1 + m00 R - m11 R - m22 R) in
  let q1 := mkq ((m21 R - m12 R) / (t1 * 2)) (t1 / 2) ((m01 R + m10 R) / (t1 * 2)) ((m20 R + m02 R) / (t1 * 2)) in
  let t2 := sqrt (1 - m00 R + m11 R - m22 R) in
  let q2 := mkq ((m02 R - m20 R) / (t2 * 2)) ((m01 R + m10 R) / (t2 * 2)) (t2 / 2) ((m12 R + m21 R) / (t2 * 2)) in
  let t3 := sqrt (1 - m00 R - m11 R + m22 R) in
  let q3 := mkq ((m10 R - m01 R) / (t3 * 2)) ((m20 R + m02 R) / (t3 * 2)) ((m21 R + m12 R) / (t3 * 2)) (t3 / 2) in
  if Rlt_dec 0 (m00 R + m11 R + m22 R) then q0
  else if Rlt_dec (m00 R) (m11 R) then (if Rlt_dec (m11 R) (m22 R) then q3 else q2)
  else (if Rlt_dec (m00 R) (m22 R) then q3 else q1).

(** matrix product, sum and scaling as used by the functions below (matrix.h, C21) *)
Definition mat_mul (a b : mat3) : mat3 :=
  mkm (m00 a * m00 b + m01 a * m10 b + m02 a * m20 b) (m00 a * m01 b + m01 a * m11 b + m02 a * m21 b)
      (m00 a * m02 b + m01 a * m12 b + m02 a * m22 b)
      (m10 a * m00 b + m11 a * m10 b + m12 a * m20 b) (m10 a * m01 b + m11 a * m11 b + m12 a * m21 b)
      (m10 a * m02 b + m11 a * m12 b + m12 a * m22 b)
      (m20 a * m00 b + m21 a * m10 b + m22 a * m20 b) (m20 a * m01 b + m21 a * m11 b + m22 a * m21 b)
      (m20 a * m02 b + m21 a * m12 b + m22 a * m22 b).
Definition mat_add (a b : mat3) : mat3 :=
  mkm (m00 a + m00 b) (m01 a + m01 b) (m02 a + m02 b) (m10 a + m10 b) (m11 a + m11 b) (m12 a + m12 b)
      (m20 a + m20 b) (m21 a + m21 b) (m22 a + m22 b).
Definition mat_scale (a : mat3) (k : R) : mat3 :=
  mkm (m00 a * k) (m01 a * k) (m02 a * k) (m10 a * k) (m11 a * k) (m12 a * k) (m20 a * k) (m21 a * k) (m22 a * k).
Definition mat_one : mat3 := mkm 1 0 0 0 1 0 0 0 1.

(** quaternion.cc 353-357 *)
Definition skew (v : vec3) : mat3 := mkm 0 (- v2 v) (v1 v) (v2 v) 0 (- v0 v) (- v1 v) (v0 v) 0.

(** quaternion.cc 334-367 *)
Definition left_jacobian_of_so3 (w : vec3) (epsilon : option R) : mat3 :=
  let angle := sqrt (v0 w * v0 w + v1 w * v1 w + v2 w * v2 w) in
  let c0 := (1 - cos angle) / angle ^ 2 in
  let c1 := (angle - sin angle) / angle ^ 3 in
  let k := skew w in
  match epsilon with
  | Some eps =>
      mat_add (mat_add mat_one (mat_scale k (if Rlt_dec eps angle then c0 else 1 / 2)))
              (mat_scale (mat_mul k k) (if Rlt_dec eps angle then c1 else 1 / 6))
  | None => mat_add (mat_add mat_one (mat_scale k c0)) (mat_scale (mat_mul k k) c1)
  end.

(** quaternion.cc 370-401 *)
Definition inverse_left_jacobian_of_so3 (w : vec3) (epsilon : option R) : mat3 :=
  let angle := sqrt (v0 w * v0 w + v1 w * v1 w + v2 w * v2 w) in
  let c0 := -1 / 2 in
  let c1 := 1 / angle ^ 2 - (1 + cos angle) / (2 * angle * sin angle) in
  let k := skew w in
  match epsilon with
  | Some eps =>
      mat_add (mat_add mat_one (mat_scale k c0)) (mat_scale (mat_mul k k) (if Rlt_dec eps angle then c1 else 1 / 12))
  | None => mat_add (mat_add mat_one (mat_scale k c0)) (mat_scale (mat_mul k k) c1)
  end.
