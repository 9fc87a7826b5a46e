(** Small dense matrices: determinants and inverses (src/linalg/Matrix.h).

    Simplification: exact rational arithmetic in place of floating point; matrices are row-major arrays (this is how the generic entry
    point of det passes them). *)
From Coq Require Import QArith Qabs.
From Verif Require Import Util.
Open Scope nat_scope.

(** m[ro][co] of a matrix with n columns *)
Definition at_ (n : nat) (m : list Q) (ro co : nat) : res Q := rd m (ro * n + co).

(** src/linalg/Matrix.h 107-110: det of a 2x2 matrix *)
Definition det2 (m : list Q) : res Q :=
  a <- at_ 2 m 0 0;; b <- at_ 2 m 1 1;; c <- at_ 2 m 0 1;; d <- at_ 2 m 1 0;; Ok (a * b - c * d)%Q.

(** src/linalg/Matrix.h 118-123: det of a 3x3 matrix *)
Definition det3 (m : list Q) : res Q :=
  m00 <- at_ 3 m 0 0;; m01 <- at_ 3 m 0 1;; m02 <- at_ 3 m 0 2;;
  m10 <- at_ 3 m 1 0;; m11 <- at_ 3 m 1 1;; m12 <- at_ 3 m 1 2;;
  m20 <- at_ 3 m 2 0;; m21 <- at_ 3 m 2 1;; m22 <- at_ 3 m 2 2;;
  Ok (m00 * (m11 * m22 - m12 * m21) - m01 * (m10 * m22 - m12 * m20) + m02 * (m10 * m21 - m11 * m20))%Q.

(** src/linalg/Matrix.h 138-150: minor without row [ex] and without the last column; state: minor and row in the minor *)
Definition minor4 (m : list Q) (ex : nat) : res (list Q) :=
  '(mi, _) <- for_ 0 4 (fun ro s => let '(mi, mr) := s in
    if ro =? ex then Ok s
    else mi <- for_ 0 3 (fun co mi => x <- at_ 4 m ro co;; wr mi (mr * 3 + co) x) mi;; Ok (mi, mr + 1)) (repeat 0%Q 9, 0);;
  Ok mi.

(** src/linalg/Matrix.h 131-160: det of a 4x4 matrix by expanding the last column *)
Definition det4 (m : list Q) : res Q :=
  for_ 0 4 (fun ex d => mi <- minor4 m ex;; d3 <- det3 mi;; x <- at_ 4 m ex 3;;
    Ok (if ex mod 2 =? 0 then d - x * d3 else d + x * d3)%Q) 0%Q.

(** src/linalg/Matrix.h 170-180: dispatch; other dimensions are fatal *)
Definition det (dim : nat) (m : list Q) : res Q :=
  if dim =? 2 then det2 m else if dim =? 3 then det3 m else if dim =? 4 then det4 m else Er Echeck.

(** std::abs(d) > tol *)
Definition gtAbs (d tol : Q) : bool := match (Qabs d ?= tol)%Q with Gt => true | _ => false end.

(** src/linalg/Matrix.h 188-204: inv of a 2x2 matrix; [tol] is TOL.LINALG *)
Definition inv2 (tol : Q) (m : list Q) : res (list Q) :=
  d <- det2 m;; _ <- check (gtAbs d tol);;
  m00 <- at_ 2 m 0 0;; m01 <- at_ 2 m 0 1;; m10 <- at_ 2 m 1 0;; m11 <- at_ 2 m 1 1;;
  for_ 0 2 (fun ro o => for_ 0 2 (fun co o => x <- at_ 2 o ro co;; wr o (ro * 2 + co) (x / d)%Q) o) [m11; - m01; - m10; m00]%Q.

(** src/linalg/Matrix.h 212-237: inv of a 3x3 matrix *)
Definition inv3 (tol : Q) (m : list Q) : res (list Q) :=
  d <- det3 m;; _ <- check (gtAbs d tol);;
  m00 <- at_ 3 m 0 0;; m01 <- at_ 3 m 0 1;; m02 <- at_ 3 m 0 2;;
  m10 <- at_ 3 m 1 0;; m11 <- at_ 3 m 1 1;; m12 <- at_ 3 m 1 2;;
  m20 <- at_ 3 m 2 0;; m21 <- at_ 3 m 2 1;; m22 <- at_ 3 m 2 2;;
  for_ 0 3 (fun ro o => for_ 0 3 (fun co o => x <- at_ 3 o ro co;; wr o (ro * 3 + co) (x / d)%Q) o)
    [m11 * m22 - m12 * m21; m02 * m21 - m01 * m22; m01 * m12 - m02 * m11;
     m12 * m20 - m10 * m22; m00 * m22 - m02 * m20; m02 * m10 - m00 * m12;
     m10 * m21 - m11 * m20; m01 * m20 - m00 * m21; m00 * m11 - m01 * m10]%Q.
