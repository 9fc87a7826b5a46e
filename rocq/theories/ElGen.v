(** Matrices of the flux solvers of the seismic waves (src/impl/seismic/generated/*.inc): transformations to and from face-aligned
    coordinates, contributions of the left and right side to the solution of the Riemann problem, middle states.

    Matrices are row-major lists. The C++ expressions are translated literally, including the order of the operations; std::pow( x, 2 ) is
    written as a product, std::pow( x, 1.5 ) is the operation [pow15]. The scalar type and its operations are arbitrary. *)
From Coq Require Import List.
Import ListNotations.

Section ElGen.
Context {T : Type}.
Variables (zero one : T) (add sub mul div : T -> T -> T) (opp sqrt pow15 : T -> T).
Declare Scope sc_scope.
Local Infix "+" := add : sc_scope.
Local Infix "-" := sub : sc_scope.
Local Infix "*" := mul : sc_scope.
Local Infix "/" := div : sc_scope.
Local Notation "- x" := (opp x) : sc_scope.
Local Open Scope sc_scope.

(** literal 2 and std::pow( x, 2 ) *)
Definition two : T := one + one.
Definition sq (x : T) : T := x * x.

(** src/impl/seismic/generated/TrafoElastic2D.inc 24-48 *)
Definition trafo2 (nx ny : T) : list T := [
 sq nx; sq ny; - two * nx * ny; zero; zero;
 sq ny; sq nx; two * nx * ny; zero; zero;
 nx * ny; - (nx * ny); sq nx - sq ny; zero; zero;
 zero; zero; zero; nx; - ny;
 zero; zero; zero; ny; nx].

(** src/impl/seismic/generated/TrafoInvElastic2D.inc 24-48 *)
Definition trafoInv2 (nx ny : T) : list T := [
 one - sq ny; sq ny; two * nx * ny; zero; zero;
 sq ny; one - sq ny; - two * nx * ny; zero; zero;
 - (nx * ny); nx * ny; one - two * sq ny; zero; zero;
 zero; zero; zero; nx; ny;
 zero; zero; zero; - ny; nx].

(** src/impl/seismic/generated/Trafo3D.inc 24-104 *)
Definition trafo3 (nx ny nz sx sy sz tx ty tz : T) : list T := [
 sq nx; sq sx; sq tx; two * nx * sx; two * sx * tx; two * nx * tx; zero; zero; zero;
 sq ny; sq sy; sq ty; two * ny * sy; two * sy * ty; two * ny * ty; zero; zero; zero;
 sq nz; sq sz; sq tz; two * nz * sz; two * sz * tz; two * nz * tz; zero; zero; zero;
 nx * ny; sx * sy; tx * ty; ny * sx + nx * sy; sy * tx + sx * ty; ny * tx + nx * ty; zero; zero; zero;
 ny * nz; sy * sz; ty * tz; nz * sy + ny * sz; sz * ty + sy * tz; nz * ty + ny * tz; zero; zero; zero;
 nx * nz; sx * sz; tx * tz; nz * sx + nx * sz; sz * tx + sx * tz; nz * tx + nx * tz; zero; zero; zero;
 zero; zero; zero; zero; zero; zero; nx; sx; tx;
 zero; zero; zero; zero; zero; zero; ny; sy; ty;
 zero; zero; zero; zero; zero; zero; nz; sz; tz].

(** src/impl/seismic/generated/TrafoInv3D.inc 24-104 *)
Definition trafoInv3 (nx ny nz sx sy sz tx ty tz : T) : list T := [
  sq (sz * ty - sy * tz) / sq (nz * sy * tx - ny * sz * tx - nz * sx * ty + nx * sz * ty + ny * sx * tz - nx * sy * tz); sq (sz * tx - sx * tz) / sq
   (nz * sy * tx - ny * sz * tx - nz * sx * ty + nx * sz * ty + ny * sx * tz - nx * sy * tz); sq (sy * tx - sx * ty) / sq (nz * sy * tx - ny * sz * tx
   - nz * sx * ty + nx * sz * ty + ny * sx * tz - nx * sy * tz); - two * (sz * tx - sx * tz) * (sz * ty - sy * tz) / sq (nz * sy * tx - ny * sz * tx -
   nz * sx * ty + nx * sz * ty + ny * sx * tz - nx * sy * tz); - two * (sy * tx - sx * ty) * (sz * tx - sx * tz) / sq (nz * sy * tx - ny * sz * tx -
   nz * sx * ty + nx * sz * ty + ny * sx * tz - nx * sy * tz); - two * (sy * tx - sx * ty) * (- (sz * ty) + sy * tz) / sq (nz * sy * tx - ny * sz * tx
   - nz * sx * ty + nx * sz * ty + ny * sx * tz - nx * sy * tz); zero; zero; zero;
  sq (nz * ty - ny * tz) / sq (nz * sy * tx - ny * sz * tx - nz * sx * ty + nx * sz * ty + ny * sx * tz - nx * sy * tz); sq (nz * tx - nx * tz) / sq
   (nz * sy * tx - ny * sz * tx - nz * sx * ty + nx * sz * ty + ny * sx * tz - nx * sy * tz); sq (ny * tx - nx * ty) / sq (nz * sy * tx - ny * sz * tx
   - nz * sx * ty + nx * sz * ty + ny * sx * tz - nx * sy * tz); - two * (nz * tx - nx * tz) * (nz * ty - ny * tz) / sq (nz * sy * tx - ny * sz * tx -
   nz * sx * ty + nx * sz * ty + ny * sx * tz - nx * sy * tz); - two * (ny * tx - nx * ty) * (nz * tx - nx * tz) / sq (nz * sy * tx - ny * sz * tx -
   nz * sx * ty + nx * sz * ty + ny * sx * tz - nx * sy * tz); - two * (ny * tx - nx * ty) * (- (nz * ty) + ny * tz) / sq (nz * sy * tx - ny * sz * tx
   - nz * sx * ty + nx * sz * ty + ny * sx * tz - nx * sy * tz); zero; zero; zero;
  sq (nz * sy - ny * sz) / sq (nz * sy * tx - ny * sz * tx - nz * sx * ty + nx * sz * ty + ny * sx * tz - nx * sy * tz); sq (nz * sx - nx * sz) / sq
   (nz * sy * tx - ny * sz * tx - nz * sx * ty + nx * sz * ty + ny * sx * tz - nx * sy * tz); sq (ny * sx - nx * sy) / sq (nz * sy * tx - ny * sz * tx
   - nz * sx * ty + nx * sz * ty + ny * sx * tz - nx * sy * tz); - two * (nz * sx - nx * sz) * (nz * sy - ny * sz) / sq (nz * sy * tx - ny * sz * tx -
   nz * sx * ty + nx * sz * ty + ny * sx * tz - nx * sy * tz); - two * (ny * sx - nx * sy) * (nz * sx - nx * sz) / sq (nz * sy * tx - ny * sz * tx -
   nz * sx * ty + nx * sz * ty + ny * sx * tz - nx * sy * tz); - two * (ny * sx - nx * sy) * (- (nz * sy) + ny * sz) / sq (nz * sy * tx - ny * sz * tx
   - nz * sx * ty + nx * sz * ty + ny * sx * tz - nx * sy * tz); zero; zero; zero;
  - ((nz * ty - ny * tz) * (sz * ty - sy * tz) / sq (nz * sy * tx - ny * sz * tx - nz * sx * ty + nx * sz * ty + ny * sx * tz - nx * sy * tz)); - ((nz
   * tx - nx * tz) * (sz * tx - sx * tz) / sq (nz * sy * tx - ny * sz * tx - nz * sx * ty + nx * sz * ty + ny * sx * tz - nx * sy * tz)); - ((ny * tx
   - nx * ty) * (sy * tx - sx * ty) / sq (nz * sy * tx - ny * sz * tx - nz * sx * ty + nx * sz * ty + ny * sx * tz - nx * sy * tz)); (tz * (- (ny * sz
   * tx) - nx * sz * ty + ny * sx * tz + nx * sy * tz) + nz * (two * sz * tx * ty - (sy * tx + sx * ty) * tz)) / sq (nz * sy * tx - ny * sz * tx - nz
   * sx * ty + nx * sz * ty + ny * sx * tz - nx * sy * tz); (nz * tx * (sy * tx - sx * ty) + ny * tx * (sz * tx - sx * tz) - nx * (sz * tx * ty + sy *
   tx * tz - two * sx * ty * tz)) / sq (nz * sy * tx - ny * sz * tx - nz * sx * ty + nx * sz * ty + ny * sx * tz - nx * sy * tz); (nz * ty * (- (sy *
   tx) + sx * ty) + nx * ty * (sz * ty - sy * tz) - ny * (sz * tx * ty - two * sy * tx * tz + sx * ty * tz)) / sq (nz * sy * tx - ny * sz * tx - nz *
   sx * ty + nx * sz * ty + ny * sx * tz - nx * sy * tz); zero; zero; zero;
  - ((nz * sy - ny * sz) * (nz * ty - ny * tz) / sq (nz * sy * tx - ny * sz * tx - nz * sx * ty + nx * sz * ty + ny * sx * tz - nx * sy * tz)); - ((nz
   * sx - nx * sz) * (nz * tx - nx * tz) / sq (nz * sy * tx - ny * sz * tx - nz * sx * ty + nx * sz * ty + ny * sx * tz - nx * sy * tz)); - ((ny * sx
   - nx * sy) * (ny * tx - nx * ty) / sq (nz * sy * tx - ny * sz * tx - nz * sx * ty + nx * sz * ty + ny * sx * tz - nx * sy * tz)); (sq nz * (sy * tx
   + sx * ty) + two * nx * ny * sz * tz - nz * (ny * sz * tx + nx * sz * ty + ny * sx * tz + nx * sy * tz)) / sq (nz * sy * tx - ny * sz * tx - nz *
   sx * ty + nx * sz * ty + ny * sx * tz - nx * sy * tz); (ny * (two * nz * sx * tx - nx * (sz * tx + sx * tz)) + nx * (- (nz * (sy * tx + sx * ty)) +
   nx * (sz * ty + sy * tz))) / sq (nz * sy * tx - ny * sz * tx - nz * sx * ty + nx * sz * ty + ny * sx * tz - nx * sy * tz); (two * nx * nz * sy * ty
   + sq ny * (sz * tx + sx * tz) - ny * (nz * sy * tx + nz * sx * ty + nx * sz * ty + nx * sy * tz)) / sq (nz * sy * tx - ny * sz * tx - nz * sx * ty
   + nx * sz * ty + ny * sx * tz - nx * sy * tz); zero; zero; zero;
  - ((nz * sy - ny * sz) * (- (sz * ty) + sy * tz) / sq (nz * sy * tx - ny * sz * tx - nz * sx * ty + nx * sz * ty + ny * sx * tz - nx * sy * tz)); -
   ((nz * sx - nx * sz) * (- (sz * tx) + sx * tz) / sq (nz * sy * tx - ny * sz * tx - nz * sx * ty + nx * sz * ty + ny * sx * tz - nx * sy * tz)); -
   ((ny * sx - nx * sy) * (- (sy * tx) + sx * ty) / sq (nz * sy * tx - ny * sz * tx - nz * sx * ty + nx * sz * ty + ny * sx * tz - nx * sy * tz)); (sz
   * (ny * sz * tx + nx * sz * ty - ny * sx * tz - nx * sy * tz) - nz * (sy * sz * tx + sx * sz * ty - two * sx * sy * tz)) / sq (nz * sy * tx - ny *
   sz * tx - nz * sx * ty + nx * sz * ty + ny * sx * tz - nx * sy * tz); (nz * sx * (- (sy * tx) + sx * ty) + ny * sx * (- (sz * tx) + sx * tz) + nx *
   (two * sy * sz * tx - sx * sz * ty - sx * sy * tz)) / sq (nz * sy * tx - ny * sz * tx - nz * sx * ty + nx * sz * ty + ny * sx * tz - nx * sy * tz);
   (nz * sy * (sy * tx - sx * ty) + nx * sy * (- (sz * ty) + sy * tz) - ny * (sy * sz * tx - two * sx * sz * ty + sx * sy * tz)) / sq (nz * sy * tx -
   ny * sz * tx - nz * sx * ty + nx * sz * ty + ny * sx * tz - nx * sy * tz); zero; zero; zero;
  zero; zero; zero; zero; zero; zero; (sz * ty - sy * tz) / (nz * sy * tx - ny * sz * tx - nz * sx * ty + nx * sz * ty + ny * sx * tz - nx * sy * tz);
   (sz * tx - sx * tz) / (- (nz * sy * tx) + ny * sz * tx + nz * sx * ty - nx * sz * ty - ny * sx * tz + nx * sy * tz); (sy * tx - sx * ty) / (nz * sy
   * tx - ny * sz * tx - nz * sx * ty + nx * sz * ty + ny * sx * tz - nx * sy * tz);
  zero; zero; zero; zero; zero; zero; (nz * ty - ny * tz) / (- (nz * sy * tx) + ny * sz * tx + nz * sx * ty - nx * sz * ty - ny * sx * tz + nx * sy *
   tz); (nz * tx - nx * tz) / (nz * sy * tx - ny * sz * tx - nz * sx * ty + nx * sz * ty + ny * sx * tz - nx * sy * tz); (ny * tx - nx * ty) / (- (nz
   * sy * tx) + ny * sz * tx + nz * sx * ty - nx * sz * ty - ny * sx * tz + nx * sy * tz);
  zero; zero; zero; zero; zero; zero; (nz * sy - ny * sz) / (nz * sy * tx - ny * sz * tx - nz * sx * ty + nx * sz * ty + ny * sx * tz - nx * sy * tz);
   (nz * sx - nx * sz) / (- (nz * sy * tx) + ny * sz * tx + nz * sx * ty - nx * sz * ty - ny * sx * tz + nx * sy * tz); (ny * sx - nx * sy) / (nz * sy
   * tx - ny * sz * tx - nz * sx * ty + nx * sz * ty + ny * sx * tz - nx * sy * tz)].

(** src/impl/seismic/generated/FlMidElastic2D.inc 24-48 *)
Definition flMidElastic2 (rhoL rhoR lamL lamR muL muR : T) : list T := [
  pow15 ((lamL + two * muL) / rhoL) * rhoL * sqrt ((lamR + two * muR) / rhoR) / (lamR * sqrt ((lamL + two * muL) / rhoL) + two * muR * sqrt ((lamL +
   two * muL) / rhoL) + (lamL + two * muL) * sqrt ((lamR + two * muR) / rhoR)); zero; zero; - (sq (lamL + two * muL) * sqrt ((lamR + two * muR) /
   rhoR) / (lamR * sqrt ((lamL + two * muL) / rhoL) + two * muR * sqrt ((lamL + two * muL) / rhoL) + (lamL + two * muL) * sqrt ((lamR + two * muR) /
   rhoR))); zero;
  lamL * sqrt ((lamL + two * muL) / rhoL) * sqrt ((lamR + two * muR) / rhoR) / (lamR * sqrt ((lamL + two * muL) / rhoL) + two * muR * sqrt ((lamL +
   two * muL) / rhoL) + (lamL + two * muL) * sqrt ((lamR + two * muR) / rhoR)); zero; zero; - (lamL * (lamL + two * muL) * sqrt ((lamR + two * muR) /
   rhoR) / (lamR * sqrt ((lamL + two * muL) / rhoL) + two * muR * sqrt ((lamL + two * muL) / rhoL) + (lamL + two * muL) * sqrt ((lamR + two * muR) /
   rhoR))); zero;
  zero; zero; muL * sqrt (muL / rhoL) * sqrt (muR / rhoR) / (muR * sqrt (muL / rhoL) + muL * sqrt (muR / rhoR)); zero; - (sq muL * sqrt (muR / rhoR) /
   (muR * sqrt (muL / rhoL) + muL * sqrt (muR / rhoR)));
  - ((lamR + two * muR) * sqrt ((lamL + two * muL) / rhoL) / (rhoL * (lamR * sqrt ((lamL + two * muL) / rhoL) + two * muR * sqrt ((lamL + two * muL) /
   rhoL) + (lamL + two * muL) * sqrt ((lamR + two * muR) / rhoR)))); zero; zero; (lamL + two * muL) * (lamR + two * muR) / (rhoL * (lamR * sqrt ((lamL
   + two * muL) / rhoL) + two * muR * sqrt ((lamL + two * muL) / rhoL) + (lamL + two * muL) * sqrt ((lamR + two * muR) / rhoR))); zero;
  zero; zero; - (muR * sqrt (muL / rhoL) / (muR * sqrt (muL / rhoL) * rhoL + muL * rhoL * sqrt (muR / rhoR))); zero; muL * muR / (muR * sqrt (muL /
   rhoL) * rhoL + muL * rhoL * sqrt (muR / rhoR))].

(** src/impl/seismic/generated/FrMidElastic2D.inc 24-48 *)
Definition frMidElastic2 (rhoL rhoR lamL lamR muL muR : T) : list T := [
  - (pow15 ((lamL + two * muL) / rhoL) * rhoL * sqrt ((lamR + two * muR) / rhoR) / (lamR * sqrt ((lamL + two * muL) / rhoL) + two * muR * sqrt ((lamL
   + two * muL) / rhoL) + (lamL + two * muL) * sqrt ((lamR + two * muR) / rhoR))); zero; zero; - ((lamR + two * muR) * pow15 ((lamL + two * muL) /
   rhoL) * rhoL / (lamR * sqrt ((lamL + two * muL) / rhoL) + two * muR * sqrt ((lamL + two * muL) / rhoL) + (lamL + two * muL) * sqrt ((lamR + two *
   muR) / rhoR))); zero;
  - (lamL * sqrt ((lamL + two * muL) / rhoL) * sqrt ((lamR + two * muR) / rhoR) / (lamR * sqrt ((lamL + two * muL) / rhoL) + two * muR * sqrt ((lamL +
   two * muL) / rhoL) + (lamL + two * muL) * sqrt ((lamR + two * muR) / rhoR))); zero; zero; - (lamL * (lamR + two * muR) * sqrt ((lamL + two * muL) /
   rhoL) / (lamR * sqrt ((lamL + two * muL) / rhoL) + two * muR * sqrt ((lamL + two * muL) / rhoL) + (lamL + two * muL) * sqrt ((lamR + two * muR) /
   rhoR))); zero;
  zero; zero; - (muL * sqrt (muL / rhoL) * sqrt (muR / rhoR) / (muR * sqrt (muL / rhoL) + muL * sqrt (muR / rhoR))); zero; - (muL * muR * sqrt (muL /
   rhoL) / (muR * sqrt (muL / rhoL) + muL * sqrt (muR / rhoR)));
  - ((lamL + two * muL) * sqrt ((lamR + two * muR) / rhoR) / (rhoL * (lamR * sqrt ((lamL + two * muL) / rhoL) + two * muR * sqrt ((lamL + two * muL) /
   rhoL) + (lamL + two * muL) * sqrt ((lamR + two * muR) / rhoR)))); zero; zero; - ((lamL + two * muL) * (lamR + two * muR) / (rhoL * (lamR * sqrt
   ((lamL + two * muL) / rhoL) + two * muR * sqrt ((lamL + two * muL) / rhoL) + (lamL + two * muL) * sqrt ((lamR + two * muR) / rhoR)))); zero;
  zero; zero; - (muL * sqrt (muR / rhoR) / (muR * sqrt (muL / rhoL) * rhoL + muL * rhoL * sqrt (muR / rhoR))); zero; - (muL * muR / (muR * sqrt (muL /
   rhoL) * rhoL + muL * rhoL * sqrt (muR / rhoR)))].

(** src/impl/seismic/generated/FlMidAcoustic2D.inc 25-49 *)
Definition flMidAcoustic2 (rhoL rhoR lamL lamR muL muR : T) : list T := [
  lamL * sqrt (lamL / rhoL) * sqrt (lamR / rhoR) / (lamR * sqrt (lamL / rhoL) + lamL * sqrt (lamR / rhoR)); zero; zero; - (sq lamL * sqrt (lamR /
   rhoR) / (lamR * sqrt (lamL / rhoL) + lamL * sqrt (lamR / rhoR))); zero;
  lamL * sqrt (lamL / rhoL) * sqrt (lamR / rhoR) / (lamR * sqrt (lamL / rhoL) + lamL * sqrt (lamR / rhoR)); zero; zero; - (sq lamL * sqrt (lamR /
   rhoR) / (lamR * sqrt (lamL / rhoL) + lamL * sqrt (lamR / rhoR))); zero;
 zero; zero; zero; zero; zero;
  - (lamR * sqrt (lamL / rhoL) / (lamR * sqrt (lamL / rhoL) * rhoL + lamL * rhoL * sqrt (lamR / rhoR))); zero; zero; lamL * lamR / (lamR * sqrt (lamL
   / rhoL) * rhoL + lamL * rhoL * sqrt (lamR / rhoR)); zero;
 zero; zero; - (one / rhoL); zero; zero].

(** src/impl/seismic/generated/FrMidAcoustic2D.inc 25-49 *)
Definition frMidAcoustic2 (rhoL rhoR lamL lamR muL muR : T) : list T := [
  - (lamL * sqrt (lamL / rhoL) * sqrt (lamR / rhoR) / (lamR * sqrt (lamL / rhoL) + lamL * sqrt (lamR / rhoR))); zero; zero; - (lamL * lamR * sqrt
   (lamL / rhoL) / (lamR * sqrt (lamL / rhoL) + lamL * sqrt (lamR / rhoR))); zero;
  - (lamL * sqrt (lamL / rhoL) * sqrt (lamR / rhoR) / (lamR * sqrt (lamL / rhoL) + lamL * sqrt (lamR / rhoR))); zero; zero; - (lamL * lamR * sqrt
   (lamL / rhoL) / (lamR * sqrt (lamL / rhoL) + lamL * sqrt (lamR / rhoR))); zero;
 zero; zero; zero; zero; zero;
  - (lamL * sqrt (lamR / rhoR) / (lamR * sqrt (lamL / rhoL) * rhoL + lamL * rhoL * sqrt (lamR / rhoR))); zero; zero; - (lamL * lamR / (lamR * sqrt
   (lamL / rhoL) * rhoL + lamL * rhoL * sqrt (lamR / rhoR))); zero;
 zero; zero; zero; zero; zero].

(** src/impl/seismic/generated/FlMid3D.inc 24-104 *)
Definition flMid3 (rhoL rhoR lamL lamR muL muR : T) : list T := [
  - ((- lamL - two * muL) * sqrt ((lamL + two * muL) / rhoL) * sqrt ((lamR + two * muR) / rhoR) / ((lamR + two * muR) * sqrt ((lamL + two * muL) /
   rhoL) + (lamL + two * muL) * sqrt ((lamR + two * muR) / rhoR))); zero; zero; zero; zero; zero; (- lamL - two * muL) * (one + (- lamR - two * muR) *
   sqrt ((lamL + two * muL) / rhoL) / ((lamR + two * muR) * sqrt ((lamL + two * muL) / rhoL) + (lamL + two * muL) * sqrt ((lamR + two * muR) /
   rhoR))); zero; zero;
  lamL * sqrt ((lamL + two * muL) / rhoL) * sqrt ((lamR + two * muR) / rhoR) / ((lamR + two * muR) * sqrt ((lamL + two * muL) / rhoL) + (lamL + two *
   muL) * sqrt ((lamR + two * muR) / rhoR)); zero; zero; zero; zero; zero; - (lamL * (one + (- lamR - two * muR) * sqrt ((lamL + two * muL) / rhoL) /
   ((lamR + two * muR) * sqrt ((lamL + two * muL) / rhoL) + (lamL + two * muL) * sqrt ((lamR + two * muR) / rhoR)))); zero; zero;
  lamL * sqrt ((lamL + two * muL) / rhoL) * sqrt ((lamR + two * muR) / rhoR) / ((lamR + two * muR) * sqrt ((lamL + two * muL) / rhoL) + (lamL + two *
   muL) * sqrt ((lamR + two * muR) / rhoR)); zero; zero; zero; zero; zero; - (lamL * (one + (- lamR - two * muR) * sqrt ((lamL + two * muL) / rhoL) /
   ((lamR + two * muR) * sqrt ((lamL + two * muL) / rhoL) + (lamL + two * muL) * sqrt ((lamR + two * muR) / rhoR)))); zero; zero;
  zero; zero; zero; muL * sqrt (muL / rhoL) * sqrt (muR / rhoR) / (muR * sqrt (muL / rhoL) + muL * sqrt (muR / rhoR)); zero; zero; zero; - (sq muL *
   sqrt (muR / rhoR) / (muR * sqrt (muL / rhoL) + muL * sqrt (muR / rhoR))); zero;
 zero; zero; zero; zero; zero; zero; zero; zero; zero;
  zero; zero; zero; zero; zero; muL * sqrt (muL / rhoL) * sqrt (muR / rhoR) / (muR * sqrt (muL / rhoL) + muL * sqrt (muR / rhoR)); zero; zero; - (sq
   muL * sqrt (muR / rhoR) / (muR * sqrt (muL / rhoL) + muL * sqrt (muR / rhoR)));
  - ((one - (lamL + two * muL) * sqrt ((lamR + two * muR) / rhoR) / ((lamR + two * muR) * sqrt ((lamL + two * muL) / rhoL) + (lamL + two * muL) * sqrt
   ((lamR + two * muR) / rhoR))) / rhoL); zero; zero; zero; zero; zero; - ((lamL + two * muL) * (- lamR - two * muR) / (rhoL * ((lamR + two * muR) *
   sqrt ((lamL + two * muL) / rhoL) + (lamL + two * muL) * sqrt ((lamR + two * muR) / rhoR)))); zero; zero;
  zero; zero; zero; - (muR * sqrt (muL / rhoL) / (muR * sqrt (muL / rhoL) * rhoL + muL * rhoL * sqrt (muR / rhoR))); zero; zero; zero; muL * muR /
   (muR * sqrt (muL / rhoL) * rhoL + muL * rhoL * sqrt (muR / rhoR)); zero;
  zero; zero; zero; zero; zero; - (muR * sqrt (muL / rhoL) / (muR * sqrt (muL / rhoL) * rhoL + muL * rhoL * sqrt (muR / rhoR))); zero; zero; muL * muR
   / (muR * sqrt (muL / rhoL) * rhoL + muL * rhoL * sqrt (muR / rhoR))].

(** src/impl/seismic/generated/FrMid3D.inc 24-104 *)
Definition frMid3 (rhoL rhoR lamL lamR muL muR : T) : list T := [
  (- lamL - two * muL) * sqrt ((lamL + two * muL) / rhoL) * sqrt ((lamR + two * muR) / rhoR) / ((lamR + two * muR) * sqrt ((lamL + two * muL) / rhoL)
   + (lamL + two * muL) * sqrt ((lamR + two * muR) / rhoR)); zero; zero; zero; zero; zero; - ((- lamL - two * muL) * (- lamR - two * muR) * sqrt
   ((lamL + two * muL) / rhoL) / ((lamR + two * muR) * sqrt ((lamL + two * muL) / rhoL) + (lamL + two * muL) * sqrt ((lamR + two * muR) / rhoR)));
   zero; zero;
  - (lamL * sqrt ((lamL + two * muL) / rhoL) * sqrt ((lamR + two * muR) / rhoR) / ((lamR + two * muR) * sqrt ((lamL + two * muL) / rhoL) + (lamL + two
   * muL) * sqrt ((lamR + two * muR) / rhoR))); zero; zero; zero; zero; zero; lamL * (- lamR - two * muR) * sqrt ((lamL + two * muL) / rhoL) / ((lamR
   + two * muR) * sqrt ((lamL + two * muL) / rhoL) + (lamL + two * muL) * sqrt ((lamR + two * muR) / rhoR)); zero; zero;
  - (lamL * sqrt ((lamL + two * muL) / rhoL) * sqrt ((lamR + two * muR) / rhoR) / ((lamR + two * muR) * sqrt ((lamL + two * muL) / rhoL) + (lamL + two
   * muL) * sqrt ((lamR + two * muR) / rhoR))); zero; zero; zero; zero; zero; lamL * (- lamR - two * muR) * sqrt ((lamL + two * muL) / rhoL) / ((lamR
   + two * muR) * sqrt ((lamL + two * muL) / rhoL) + (lamL + two * muL) * sqrt ((lamR + two * muR) / rhoR)); zero; zero;
  zero; zero; zero; - (muL * sqrt (muL / rhoL) * sqrt (muR / rhoR) / (muR * sqrt (muL / rhoL) + muL * sqrt (muR / rhoR))); zero; zero; zero; - (muL *
   muR * sqrt (muL / rhoL) / (muR * sqrt (muL / rhoL) + muL * sqrt (muR / rhoR))); zero;
 zero; zero; zero; zero; zero; zero; zero; zero; zero;
  zero; zero; zero; zero; zero; - (muL * sqrt (muL / rhoL) * sqrt (muR / rhoR) / (muR * sqrt (muL / rhoL) + muL * sqrt (muR / rhoR))); zero; zero; -
   (muL * muR * sqrt (muL / rhoL) / (muR * sqrt (muL / rhoL) + muL * sqrt (muR / rhoR)));
  - ((lamL + two * muL) * sqrt ((lamR + two * muR) / rhoR) / (rhoL * ((lamR + two * muR) * sqrt ((lamL + two * muL) / rhoL) + (lamL + two * muL) *
   sqrt ((lamR + two * muR) / rhoR)))); zero; zero; zero; zero; zero; (lamL + two * muL) * (- lamR - two * muR) / (rhoL * ((lamR + two * muR) * sqrt
   ((lamL + two * muL) / rhoL) + (lamL + two * muL) * sqrt ((lamR + two * muR) / rhoR))); zero; zero;
  zero; zero; zero; - (muL * sqrt (muR / rhoR) / (muR * sqrt (muL / rhoL) * rhoL + muL * rhoL * sqrt (muR / rhoR))); zero; zero; zero; - (muL * muR /
   (muR * sqrt (muL / rhoL) * rhoL + muL * rhoL * sqrt (muR / rhoR))); zero;
  zero; zero; zero; zero; zero; - (muL * sqrt (muR / rhoR) / (muR * sqrt (muL / rhoL) * rhoL + muL * rhoL * sqrt (muR / rhoR))); zero; zero; - (muL *
   muR / (muR * sqrt (muL / rhoL) * rhoL + muL * rhoL * sqrt (muR / rhoR)))].

(** src/impl/seismic/generated/MiddleStateJumpL2D.inc 23-47 *)
Definition msJumpL2 (rhoL rhoR lamL lamR muL muR : T) : list T := [
  (lamL + two * muL) * sqrt ((lamR + two * muR) / rhoR) / (lamR * sqrt ((lamL + two * muL) / rhoL) + two * muR * sqrt ((lamL + two * muL) / rhoL) +
   (lamL + two * muL) * sqrt ((lamR + two * muR) / rhoR)); zero; zero; (lamL + two * muL) * (lamR + two * muR) / (lamR * sqrt ((lamL + two * muL) /
   rhoL) + two * muR * sqrt ((lamL + two * muL) / rhoL) + (lamL + two * muL) * sqrt ((lamR + two * muR) / rhoR)); zero;
  lamL * sqrt ((lamR + two * muR) / rhoR) / (lamR * sqrt ((lamL + two * muL) / rhoL) + two * muR * sqrt ((lamL + two * muL) / rhoL) + (lamL + two *
   muL) * sqrt ((lamR + two * muR) / rhoR)); zero; zero; lamL * (lamR + two * muR) / (lamR * sqrt ((lamL + two * muL) / rhoL) + two * muR * sqrt
   ((lamL + two * muL) / rhoL) + (lamL + two * muL) * sqrt ((lamR + two * muR) / rhoR)); zero;
  zero; zero; muL * sqrt (muR / rhoR) / (muR * sqrt (muL / rhoL) + muL * sqrt (muR / rhoR)); zero; muL * muR / (muR * sqrt (muL / rhoL) + muL * sqrt
   (muR / rhoR));
  sqrt ((lamL + two * muL) / rhoL) * sqrt ((lamR + two * muR) / rhoR) / (lamR * sqrt ((lamL + two * muL) / rhoL) + two * muR * sqrt ((lamL + two *
   muL) / rhoL) + (lamL + two * muL) * sqrt ((lamR + two * muR) / rhoR)); zero; zero; (lamR + two * muR) * sqrt ((lamL + two * muL) / rhoL) / (lamR *
   sqrt ((lamL + two * muL) / rhoL) + two * muR * sqrt ((lamL + two * muL) / rhoL) + (lamL + two * muL) * sqrt ((lamR + two * muR) / rhoR)); zero;
  zero; zero; sqrt (muL / rhoL) * sqrt (muR / rhoR) / (muR * sqrt (muL / rhoL) + muL * sqrt (muR / rhoR)); zero; muR * sqrt (muL / rhoL) / (muR * sqrt
   (muL / rhoL) + muL * sqrt (muR / rhoR))].

(** src/impl/seismic/generated/MiddleStateJumpR2D.inc 23-47 *)
Definition msJumpR2 (rhoL rhoR lamL lamR muL muR : T) : list T := [
  - ((lamR + two * muR) * sqrt ((lamL + two * muL) / rhoL) / (lamR * sqrt ((lamL + two * muL) / rhoL) + two * muR * sqrt ((lamL + two * muL) / rhoL) +
   (lamL + two * muL) * sqrt ((lamR + two * muR) / rhoR))); zero; zero; (lamL + two * muL) * (lamR + two * muR) / (lamR * sqrt ((lamL + two * muL) /
   rhoL) + two * muR * sqrt ((lamL + two * muL) / rhoL) + (lamL + two * muL) * sqrt ((lamR + two * muR) / rhoR)); zero;
  - (lamR * sqrt ((lamL + two * muL) / rhoL) / (lamR * sqrt ((lamL + two * muL) / rhoL) + two * muR * sqrt ((lamL + two * muL) / rhoL) + (lamL + two *
   muL) * sqrt ((lamR + two * muR) / rhoR))); zero; zero; lamR * (lamL + two * muL) / (lamR * sqrt ((lamL + two * muL) / rhoL) + two * muR * sqrt
   ((lamL + two * muL) / rhoL) + (lamL + two * muL) * sqrt ((lamR + two * muR) / rhoR)); zero;
  zero; zero; - (muR * sqrt (muL / rhoL) / (muR * sqrt (muL / rhoL) + muL * sqrt (muR / rhoR))); zero; muL * muR / (muR * sqrt (muL / rhoL) + muL *
   sqrt (muR / rhoR));
  sqrt ((lamL + two * muL) / rhoL) * sqrt ((lamR + two * muR) / rhoR) / (lamR * sqrt ((lamL + two * muL) / rhoL) + two * muR * sqrt ((lamL + two *
   muL) / rhoL) + (lamL + two * muL) * sqrt ((lamR + two * muR) / rhoR)); zero; zero; - ((lamL + two * muL) * sqrt ((lamR + two * muR) / rhoR) / (lamR
   * sqrt ((lamL + two * muL) / rhoL) + two * muR * sqrt ((lamL + two * muL) / rhoL) + (lamL + two * muL) * sqrt ((lamR + two * muR) / rhoR))); zero;
  zero; zero; sqrt (muL / rhoL) * sqrt (muR / rhoR) / (muR * sqrt (muL / rhoL) + muL * sqrt (muR / rhoR)); zero; - (muL * sqrt (muR / rhoR) / (muR *
   sqrt (muL / rhoL) + muL * sqrt (muR / rhoR)))].

(** src/impl/seismic/generated/MiddleStateFlux2D.inc 23-47 *)
Definition msFlux2 (nx ny rho lam mu : T) : list T := [
 zero; zero; zero; - lam + two * mu * (- one + sq ny); two * mu * nx * ny;
 zero; zero; zero; - lam - two * mu * sq ny; - two * mu * nx * ny;
 zero; zero; zero; - two * mu * nx * ny; mu * (- one + two * sq ny);
 - (nx / rho); zero; ny / rho; zero; zero;
 - (ny / rho); zero; - (nx / rho); zero; zero].

(** src/impl/seismic/generated/MiddleStateJumpL3D.inc 23-103 *)
Definition msJumpL3 (rhoL rhoR lamL lamR muL muR : T) : list T := [
  (lamL + two * muL) * sqrt ((lamR + two * muR) / rhoR) / ((lamR + two * muR) * sqrt ((lamL + two * muL) / rhoL) + (lamL + two * muL) * sqrt ((lamR +
   two * muR) / rhoR)); zero; zero; zero; zero; zero; - ((lamL + two * muL) * (- lamR - two * muR) / ((lamR + two * muR) * sqrt ((lamL + two * muL) /
   rhoL) + (lamL + two * muL) * sqrt ((lamR + two * muR) / rhoR))); zero; zero;
  lamL * sqrt ((lamR + two * muR) / rhoR) / ((lamR + two * muR) * sqrt ((lamL + two * muL) / rhoL) + (lamL + two * muL) * sqrt ((lamR + two * muR) /
   rhoR)); zero; zero; zero; zero; zero; - (lamL * (- lamR - two * muR) / ((lamR + two * muR) * sqrt ((lamL + two * muL) / rhoL) + (lamL + two * muL)
   * sqrt ((lamR + two * muR) / rhoR))); zero; zero;
  lamL * sqrt ((lamR + two * muR) / rhoR) / ((lamR + two * muR) * sqrt ((lamL + two * muL) / rhoL) + (lamL + two * muL) * sqrt ((lamR + two * muR) /
   rhoR)); zero; zero; zero; zero; zero; - (lamL * (- lamR - two * muR) / ((lamR + two * muR) * sqrt ((lamL + two * muL) / rhoL) + (lamL + two * muL)
   * sqrt ((lamR + two * muR) / rhoR))); zero; zero;
  zero; zero; zero; muL * sqrt (muR / rhoR) / (muR * sqrt (muL / rhoL) + muL * sqrt (muR / rhoR)); zero; zero; zero; muL * muR / (muR * sqrt (muL /
   rhoL) + muL * sqrt (muR / rhoR)); zero;
 zero; zero; zero; zero; zero; zero; zero; zero; zero;
  zero; zero; zero; zero; zero; muL * sqrt (muR / rhoR) / (muR * sqrt (muL / rhoL) + muL * sqrt (muR / rhoR)); zero; zero; muL * muR / (muR * sqrt
   (muL / rhoL) + muL * sqrt (muR / rhoR));
  sqrt ((lamL + two * muL) / rhoL) * sqrt ((lamR + two * muR) / rhoR) / ((lamR + two * muR) * sqrt ((lamL + two * muL) / rhoL) + (lamL + two * muL) *
   sqrt ((lamR + two * muR) / rhoR)); zero; zero; zero; zero; zero; - ((- lamR - two * muR) * sqrt ((lamL + two * muL) / rhoL) / ((lamR + two * muR) *
   sqrt ((lamL + two * muL) / rhoL) + (lamL + two * muL) * sqrt ((lamR + two * muR) / rhoR))); zero; zero;
  zero; zero; zero; sqrt (muL / rhoL) * sqrt (muR / rhoR) / (muR * sqrt (muL / rhoL) + muL * sqrt (muR / rhoR)); zero; zero; zero; muR * sqrt (muL /
   rhoL) / (muR * sqrt (muL / rhoL) + muL * sqrt (muR / rhoR)); zero;
  zero; zero; zero; zero; zero; sqrt (muL / rhoL) * sqrt (muR / rhoR) / (muR * sqrt (muL / rhoL) + muL * sqrt (muR / rhoR)); zero; zero; muR * sqrt
   (muL / rhoL) / (muR * sqrt (muL / rhoL) + muL * sqrt (muR / rhoR))].

(** src/impl/seismic/generated/MiddleStateJumpR3D.inc 23-103 *)
Definition msJumpR3 (rhoL rhoR lamL lamR muL muR : T) : list T := [
  - ((lamR + two * muR) * sqrt ((lamL + two * muL) / rhoL) / ((lamR + two * muR) * sqrt ((lamL + two * muL) / rhoL) + (lamL + two * muL) * sqrt ((lamR
   + two * muR) / rhoR))); zero; zero; zero; zero; zero; (lamL + two * muL) * (lamR + two * muR) / ((lamR + two * muR) * sqrt ((lamL + two * muL) /
   rhoL) + (lamL + two * muL) * sqrt ((lamR + two * muR) / rhoR)); zero; zero;
  - (lamR * sqrt ((lamL + two * muL) / rhoL) / ((lamR + two * muR) * sqrt ((lamL + two * muL) / rhoL) + (lamL + two * muL) * sqrt ((lamR + two * muR)
   / rhoR))); zero; zero; zero; zero; zero; lamR * (lamL + two * muL) / ((lamR + two * muR) * sqrt ((lamL + two * muL) / rhoL) + (lamL + two * muL) *
   sqrt ((lamR + two * muR) / rhoR)); zero; zero;
  - (lamR * sqrt ((lamL + two * muL) / rhoL) / ((lamR + two * muR) * sqrt ((lamL + two * muL) / rhoL) + (lamL + two * muL) * sqrt ((lamR + two * muR)
   / rhoR))); zero; zero; zero; zero; zero; lamR * (lamL + two * muL) / ((lamR + two * muR) * sqrt ((lamL + two * muL) / rhoL) + (lamL + two * muL) *
   sqrt ((lamR + two * muR) / rhoR)); zero; zero;
  zero; zero; zero; - (muR * sqrt (muL / rhoL) / (muR * sqrt (muL / rhoL) + muL * sqrt (muR / rhoR))); zero; zero; zero; muL * muR / (muR * sqrt (muL
   / rhoL) + muL * sqrt (muR / rhoR)); zero;
 zero; zero; zero; zero; zero; zero; zero; zero; zero;
  zero; zero; zero; zero; zero; - (muR * sqrt (muL / rhoL) / (muR * sqrt (muL / rhoL) + muL * sqrt (muR / rhoR))); zero; zero; muL * muR / (muR * sqrt
   (muL / rhoL) + muL * sqrt (muR / rhoR));
  sqrt ((lamL + two * muL) / rhoL) * sqrt ((lamR + two * muR) / rhoR) / ((lamR + two * muR) * sqrt ((lamL + two * muL) / rhoL) + (lamL + two * muL) *
   sqrt ((lamR + two * muR) / rhoR)); zero; zero; zero; zero; zero; - ((lamL + two * muL) * sqrt ((lamR + two * muR) / rhoR) / ((lamR + two * muR) *
   sqrt ((lamL + two * muL) / rhoL) + (lamL + two * muL) * sqrt ((lamR + two * muR) / rhoR))); zero; zero;
  zero; zero; zero; sqrt (muL / rhoL) * sqrt (muR / rhoR) / (muR * sqrt (muL / rhoL) + muL * sqrt (muR / rhoR)); zero; zero; zero; - (muL * sqrt (muR
   / rhoR) / (muR * sqrt (muL / rhoL) + muL * sqrt (muR / rhoR))); zero;
  zero; zero; zero; zero; zero; sqrt (muL / rhoL) * sqrt (muR / rhoR) / (muR * sqrt (muL / rhoL) + muL * sqrt (muR / rhoR)); zero; zero; - (muL * sqrt
   (muR / rhoR) / (muR * sqrt (muL / rhoL) + muL * sqrt (muR / rhoR)))].

(** src/impl/seismic/generated/MiddleStateFlux3D.inc 23-103 *)
Definition msFlux3 (nx ny nz sx sy sz tx ty tz rho lam mu : T) : list T := [
 zero; zero; zero; zero; zero; zero; - two * mu * sq nx - lam * (sq nx + sq sx + sq tx); - two * mu * nx * sx; - two * mu * nx * tx;
 zero; zero; zero; zero; zero; zero; - two * mu * sq ny - lam * (sq ny + sq sy + sq ty); - two * mu * ny * sy; - two * mu * ny * ty;
 zero; zero; zero; zero; zero; zero; - two * mu * sq nz - lam * (sq nz + sq sz + sq tz); - two * mu * nz * sz; - two * mu * nz * tz;
  zero; zero; zero; zero; zero; zero; - two * mu * nx * ny - lam * (nx * ny + sx * sy + tx * ty); - (mu * (ny * sx + nx * sy)); - (mu * (ny * tx + nx
   * ty));
  zero; zero; zero; zero; zero; zero; - two * mu * ny * nz - lam * (ny * nz + sy * sz + ty * tz); - (mu * (nz * sy + ny * sz)); - (mu * (nz * ty + ny
   * tz));
  zero; zero; zero; zero; zero; zero; - two * mu * nx * nz - lam * (nx * nz + sx * sz + tx * tz); - (mu * (nz * sx + nx * sz)); - (mu * (nz * tx + nx
   * tz));
 - (nx / rho); zero; zero; - (sx / rho); zero; - (tx / rho); zero; zero; zero;
 - (ny / rho); zero; zero; - (sy / rho); zero; - (ty / rho); zero; zero; zero;
 - (nz / rho); zero; zero; - (sz / rho); zero; - (tz / rho); zero; zero; zero].

End ElGen.
