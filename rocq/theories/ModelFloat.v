(** Model of the rotation and rigid-transform functions as they are computed on doubles.
    ModelLeaf.v has the same functions over exact real numbers; here every arithmetic
    operation is the IEEE 754 binary64 operation of Flocq, rounding to nearest even, with
    infinities and NaN.  Citations are to /repo/include/wave/geometry/src. *)

From Coq Require Import ZArith Reals List Bool.
From Flocq Require Import Core BinarySingleNaN.
From Verif Require Import V3.
Import ListNotations.

(** ** Doubles *)

Lemma prec_positive : Prec_gt_0 53.
Proof. reflexivity. Qed.
Lemma prec_below_emax : Prec_lt_emax 53 1024.
Proof. reflexivity. Qed.
#[global] Existing Instance prec_positive.
#[global] Existing Instance prec_below_emax.

(** The C++ type double. *)
Definition double := binary_float 53 1024.

(** +, -, *, /, unary minus and std::sqrt on double, and the fused multiply-add a compiler
    may use for x * y + z. *)
Definition fadd : double -> double -> double := Bplus mode_NE.
Definition fsub : double -> double -> double := Bminus mode_NE.
Definition fmul : double -> double -> double := Bmult mode_NE.
Definition fdiv : double -> double -> double := Bdiv mode_NE.
Definition fopp : double -> double := @Bopp 53 1024.
Definition fsqrt : double -> double := Bsqrt mode_NE.
Definition ffma : double -> double -> double -> double := Bfma mode_NE.
(** x > y: false if either is NaN. *)
Definition fgt (x y : double) : bool := Bltb y x.

(** Literals m * 2^e. *)
Definition lit (m e : Z) : double := binary_normalize 53 1024 _ _ mode_NE m e false.
Definition f0 : double := B754_zero false.
Definition f1 : double := lit 1 0.
Definition f2 : double := lit 2 0.
Definition f3 : double := lit 3 0.
Definition fhalf : double := lit 1 (-1).
(** Eigen::NumTraits<double>::epsilon() *)
Definition feps : double := lit 1 (-52).

(** std::sin, std::cos and std::acos. *)
Record libm := Libm { fsin : double -> double; fcos : double -> double; facos : double -> double }.

(** ** Vectors and matrices of doubles *)

(** Eigen::Vector3d, and Eigen::Matrix3d as its three rows. *)
Record DV := mkDV { dx : double; dy : double; dz : double }.
Record DM := mkDM { r0 : DV; r1 : DV; r2 : DV }.

Definition dcol0 (m : DM) : DV := mkDV (dx (r0 m)) (dx (r1 m)) (dx (r2 m)).
Definition dcol1 (m : DM) : DV := mkDV (dy (r0 m)) (dy (r1 m)) (dy (r2 m)).
Definition dcol2 (m : DM) : DV := mkDV (dz (r0 m)) (dz (r1 m)) (dz (r2 m)).
Definition dtr (m : DM) : DM := mkDM (dcol0 m) (dcol1 m) (dcol2 m).

Definition dmapv (f : double -> double) (v : DV) : DV := mkDV (f (dx v)) (f (dy v)) (f (dz v)).
Definition dmapv2 (f : double -> double -> double) (v w : DV) : DV :=
  mkDV (f (dx v) (dx w)) (f (dy v) (dy w)) (f (dz v) (dz w)).
Definition dmapm (f : double -> double) (m : DM) : DM :=
  mkDM (dmapv f (r0 m)) (dmapv f (r1 m)) (dmapv f (r2 m)).
Definition dmapm2 (f : double -> double -> double) (m n : DM) : DM :=
  mkDM (dmapv2 f (r0 m) (r0 n)) (dmapv2 f (r1 m) (r1 n)) (dmapv2 f (r2 m) (r2 n)).

Definition did : DM := mkDM (mkDV f1 f0 f0) (mkDV f0 f1 f0) (mkDV f0 f0 f1).

(** util/math/CrossMatrix.hpp 37-49. *)
Definition dskew (v : DV) : DM :=
  mkDM (mkDV f0 (fopp (dz v)) (dy v)) (mkDV (dz v) f0 (fopp (dx v)))
       (mkDV (fopp (dy v)) (dx v) f0).

(** A sum of three products.  Eigen sums in one of these orders, depending on how it
    vectorises the operation; the compiler may fuse a product and a sum. *)
Inductive order := LeftFirst | RightFirst | Fused.
Definition ddot (o : order) (a b : DV) : double :=
  match o with
  | LeftFirst => fadd (fadd (fmul (dx a) (dx b)) (fmul (dy a) (dy b))) (fmul (dz a) (dz b))
  | RightFirst => fadd (fmul (dx a) (dx b)) (fadd (fmul (dy a) (dy b)) (fmul (dz a) (dz b)))
  | Fused => ffma (dz a) (dz b) (ffma (dy a) (dy b) (fmul (dx a) (dx b)))
  end.

(** Matrix times matrix and matrix times vector: geometry/leaf/MatrixRotation.hpp 91-97 and
    110-114. *)
Definition dapp (o : order) (m : DM) (v : DV) : DV :=
  mkDV (ddot o (r0 m) v) (ddot o (r1 m) v) (ddot o (r2 m) v).
Definition dmul (o : order) (m n : DM) : DM :=
  mkDM (dapp o (dtr n) (r0 m)) (dapp o (dtr n) (r1 m)) (dapp o (dtr n) (r2 m)).

(** m1 * m2 * ... * mn, written or accumulated from the left. *)
Fixpoint dprod (o : order) (acc : DM) (l : list DM) : DM :=
  match l with [] => acc | m :: l => dprod o (dmul o acc m) l end.

(** ** Exponential and logarithm *)
Section Libm.
  Variable M : libm.
  Variable o : order.

  (** evalImpl(expr<ExpMap>, RelativeRotation): geometry/leaf/RelativeRotation.hpp 103-129.
      The quaternion's w and its vector part. *)
  Definition dexp_quat (v : DV) : double * DV :=
    let angle2 := ddot o v v in
    let angle := fsqrt angle2 in
    if fgt (fmul angle2 angle2) feps then
      let s := fdiv (fsin M (fdiv angle f2)) angle in
      (fcos M (fdiv angle f2), dmapv (fmul s) v)
    else
      let s := fadd fhalf (fdiv angle2 (lit 48 0)) in
      (fsub f1 (fdiv angle2 (lit 8 0)), dmapv (fmul s) v).

  (** evalImpl(expr<LogMap>, MatrixRotation): geometry/leaf/MatrixRotation.hpp 71-89 (the
      trace is a sum of three terms in either order), with uncrossMatrix of
      util/math/math.hpp 45-55. *)
  Definition dtrace (m : DM) : double :=
    match o with
    | RightFirst => fadd (dx (r0 m)) (fadd (dy (r1 m)) (dz (r2 m)))
    | _ => fadd (fadd (dx (r0 m)) (dy (r1 m))) (dz (r2 m))
    end.
  Definition duncross (m : DM) : DV := mkDV (dy (r2 m)) (dz (r0 m)) (dx (r1 m)).
  Definition dlog_mat (m : DM) : DV :=
    let angle := facos M (fdiv (fsub (dtrace m) f1) f2) in
    let skewed := dmapm2 fsub m (dtr m) in
    if fgt (fmul angle angle) feps
    then duncross (dmapm (fmul (fdiv angle (fmul f2 (fsin M angle)))) skewed)
    else duncross (dmapm (fmul fhalf) skewed).

  (** jacobianImpl(expr<LogMap>, RelativeRotation, RotationBase): geometry/op/LogMap.hpp
      38-60.  The last product is the one with a CrossMatrix on the right,
      util/math/CrossMatrix.hpp 161-169. *)
  Definition dcross (a b : DV) : DV :=
    mkDV (fsub (fmul (dy a) (dz b)) (fmul (dz a) (dy b)))
         (fsub (fmul (dz a) (dx b)) (fmul (dx a) (dz b)))
         (fsub (fmul (dx a) (dy b)) (fmul (dy a) (dx b))).
  Definition dmat_cross (m : DM) (v : DV) : DM :=
    mkDM (dcross (r0 m) v) (dcross (r1 m) v) (dcross (r2 m) v).
  Definition dlog_rot_jac (phi : DV) : DM :=
    let theta2 := ddot o phi phi in
    let theta := fsqrt theta2 in
    let A := fdiv (fsin M theta) theta in
    let B := fdiv (fsub f1 (fcos M theta)) theta2 in
    let k := fdiv (fsub B (fmul fhalf A)) (fsub f1 (fcos M theta)) in
    dmapm2 fadd (dmapm2 fsub did (dmapm (fmul fhalf) (dskew phi)))
                (dmat_cross (dmapm (fmul k) (dskew phi)) phi).

  (** evalImpl(expr<LogMap>, RigidTransformBase): geometry/base/RigidTransformBase.hpp
      122-158, for a transform with rotation matrix [m] and translation [t]. *)
  Definition drt_log (m : DM) (t : DV) : DV * DV :=
    let omega := dlog_mat m in
    let theta2 := ddot o omega omega in
    let theta := fsqrt theta2 in
    let cross := dskew omega in
    if fgt theta2 feps then
      let A := fdiv (fsin M theta) theta in
      let B := fdiv (fsub f1 (fcos M theta)) theta2 in
      let cross2 := dmul o cross cross in
      let k := fdiv (fsub f1 (fdiv (fdiv A f2) B)) theta2 in
      let Vinv := dmapm2 fadd (dmapm2 fsub did (dmapm (fun x => fdiv x f2) cross))
                              (dmapm (fmul k) cross2) in
      (omega, dapp o Vinv t)
    else
      (omega, dapp o (dmapm2 fsub did (dmapm (fun x => fdiv x f2) cross)) t).

  (** The "B" block of the Jacobian of the exponential of a twist (the derivative of the
      translation with respect to the rotation part): geometry/leaf/Twist.hpp 150-162. *)
  Definition douter (a b : DV) : DM :=
    mkDM (dmapv (fmul (dx a)) b) (dmapv (fmul (dy a)) b) (dmapv (fmul (dz a)) b).
  Definition dexp_jac_block (w u : DV) : DM :=
    let theta2 := ddot o w w in
    let theta := fsqrt theta2 in
    let a := fdiv (fsin M theta) theta in
    let b := fdiv (fsub f1 (fcos M theta)) theta2 in
    let c := fdiv (fsub f1 a) theta2 in
    let W := dmapm2 fadd
               (dmapm2 fadd (dmapm (fmul (fsub c b)) did)
                  (dmapm (fmul (fdiv (fsub a (fmul f2 b)) theta2)) (dskew w)))
               (douter (dmapv (fmul (fdiv (fsub b (fmul f3 c)) theta2)) w) w) in
    dmapm2 fadd
      (dmapm2 fadd (dmapm (fmul b) (dskew u))
         (dmapm (fmul c) (dmapm2 fadd (douter w u) (douter u w))))
      (dmapm (fmul (ddot o w u)) W).
End Libm.
