(** Model of quaternion and rigid-transform operations as they are computed on doubles.
    Citations are to /repo/include/wave/geometry/src. *)

From Coq Require Import ZArith Reals List Bool.
From Flocq Require Import Core BinarySingleNaN.
From Verif Require Import V3 ModelFloat.
Import ListNotations.

(** A way of evaluating a sum of products: any bracketing of any permutation of the terms,
    with products fused into sums or not.  Eigen's quaternion product has several variants
    that differ in this. *)
Inductive sumtree := Prod (i : nat) | Plus (a b : sumtree) | Fma (i : nat) (a : sumtree).
Fixpoint dsum (t : sumtree) (l : list (double * double)) : double :=
  match t with
  | Prod i => let p := nth i l (f0, f0) in fmul (fst p) (snd p)
  | Plus a b => fadd (dsum a l) (dsum b l)
  | Fma i a => let p := nth i l (f0, f0) in ffma (fst p) (snd p) (dsum a l)
  end.
(** The terms a way of summation uses. *)
Fixpoint uses (t : sumtree) : list nat :=
  match t with
  | Prod i => [i]
  | Plus a b => uses a ++ uses b
  | Fma i a => i :: uses a
  end.

(** Eigen::Quaterniond. *)
Record DQ := mkDQ { dw : double; dv : DV }.

(** One way of summation for each component of the product. *)
Record qorder := mkO { ow : sumtree; ox : sumtree; oy : sumtree; oz : sumtree }.

(** evalImpl(expr<Compose>, QuaternionRotation, QuaternionRotation):
    geometry/leaf/QuaternionRotation.hpp 82-89, Eigen's quaternion product.  A difference
    of products is the sum with the product of the negated factor, which is the same
    number. *)
Definition dqmul (o : qorder) (a b : DQ) : DQ :=
  let aw := dw a in let ax := dx (dv a) in let ay := dy (dv a) in let az := dz (dv a) in
  let bw := dw b in let bx := dx (dv b) in let by_ := dy (dv b) in let bz := dz (dv b) in
  mkDQ (dsum (ow o) [(aw, bw); (fopp ax, bx); (fopp ay, by_); (fopp az, bz)])
       (mkDV (dsum (ox o) [(aw, bx); (ax, bw); (ay, bz); (fopp az, by_)])
             (dsum (oy o) [(aw, by_); (ay, bw); (az, bx); (fopp ax, bz)])
             (dsum (oz o) [(aw, bz); (az, bw); (ax, by_); (fopp ay, bx)])).

(** q1 * q2 * ... * qn, written or accumulated from the left. *)
Fixpoint dqprod (o : qorder) (acc : DQ) (l : list DQ) : DQ :=
  match l with [] => acc | q :: l => dqprod o (dqmul o acc q) l end.

(** evalImpl(expr<Inverse>, QuaternionRotation): QuaternionRotation.hpp 65-69. *)
Definition dqconj (a : DQ) : DQ := mkDQ (dw a) (dmapv fopp (dv a)).

(** x * y + z, fused or not. *)
Definition dmadd (o : order) (x y z : double) : double :=
  match o with Fused => ffma x y z | _ => fadd (fmul x y) z end.
(** a * b - c * d *)
Definition dmsub (o : order) (a b c d : double) : double := dmadd o a b (fopp (fmul c d)).
Definition dcross_o (o : order) (a b : DV) : DV :=
  mkDV (dmsub o (dy a) (dz b) (dz a) (dy b))
       (dmsub o (dz a) (dx b) (dx a) (dz b))
       (dmsub o (dx a) (dy b) (dy a) (dx b)).

(** evalImpl(expr<Rotate>, QuaternionRotation, Translation): QuaternionRotation.hpp 100-107,
    Eigen's v + w * uv + vec x uv with uv = 2 (vec x v). *)
Definition dqact (o : order) (q : DQ) (v : DV) : DV :=
  let c := dcross_o o (dv q) v in
  let uv := dmapv2 fadd c c in
  let c2 := dcross_o o (dv q) uv in
  mkDV (fadd (dmadd o (dw q) (dx uv) (dx v)) (dx c2))
       (fadd (dmadd o (dw q) (dy uv) (dy v)) (dy c2))
       (fadd (dmadd o (dw q) (dz uv) (dz v)) (dz c2)).

(** evalImpl(expr<Convert, MatrixRotation>, QuaternionRotation): QuaternionRotation.hpp
    130-137, Eigen's toRotationMatrix. *)
Definition dqrot (o : order) (q : DQ) : DM :=
  let w := dw q in let x := dx (dv q) in let y := dy (dv q) in let z := dz (dv q) in
  let tx := fmul f2 x in let ty := fmul f2 y in let tz := fmul f2 z in
  mkDM (mkDV (fsub f1 (dmadd o ty y (fmul tz z))) (dmsub o ty x tz w) (dmadd o tz x (fmul ty w)))
       (mkDV (dmadd o ty x (fmul tz w)) (fsub f1 (dmadd o tx x (fmul tz z))) (dmsub o tz y tx w))
       (mkDV (dmsub o tz x ty w) (dmadd o tz y (fmul tx w)) (fsub f1 (dmadd o tx x (fmul ty y)))).

(** Rigid transforms by rotation matrix and translation. *)
Record DRTd := mkRTd { drm : DM; drt : DV }.

(** evalImpl(expr<Compose>, RigidTransformBase, RigidTransformBase):
    geometry/base/RigidTransformBase.hpp 109-118, for 4x4 matrix transforms. *)
Definition drtmul (o : order) (a b : DRTd) : DRTd :=
  mkRTd (dmul o (drm a) (drm b)) (dmapv2 fadd (dapp o (drm a) (drt b)) (drt a)).
Fixpoint drtprod (o : order) (acc : DRTd) (l : list DRTd) : DRTd :=
  match l with [] => acc | q :: l => drtprod o (drtmul o acc q) l end.

(** evalImpl(expr<Transform>, RigidTransformBase, Translation): 
    geometry/base/TransformBase.hpp 232-239. *)
Definition dtransform (o : order) (a : DRTd) (v : DV) : DV :=
  dmapv2 fadd (dapp o (drm a) v) (drt a).

(** evalImpl(expr<Inverse>, RigidTransformBase): RigidTransformBase.hpp 78-83. *)
Definition drtinv (o : order) (a : DRTd) : DRTd :=
  mkRTd (dtr (drm a)) (dmapv fopp (dapp o (dtr (drm a)) (drt a))).
