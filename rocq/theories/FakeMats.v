(** Sparsity patterns of the kernels for fused forward simulations (src/impl/seismic/kernels/FakeMats.hpp) and sparse source matrices
    (src/impl/seismic/setups/ViscoElasticity.h).  The patterns of the star matrices are in Elastic.v. *)
From Coq Require Import QArith Qcanon.
From Verif Require Import Util MatSparse Elastic Props_Fwave.
Open Scope nat_scope.

Section Src.
Context {T : Type}.
Variable zero : T.
(** src/impl/seismic/setups/ViscoElasticity.h 248-256 (2D), 424-437 (3D): source matrix of one mechanism for given non-zero values
    (l_nzs[0], l_nzs[1], l_nzs[2]); all other entries were set to zero before.  The computation of the values: Visc. *)
Definition srcDense (nDim : nat) (n0 n1 n2 : T) : list T :=
  if nDim =? 2 then
    [ n0; n2; zero;
      n2; n0; zero;
      zero; zero; n1 ]
  else
    [ n0; n2; n2; zero; zero; zero;
      n2; n0; n2; zero; zero; zero;
      n2; n2; n0; zero; zero; zero;
      zero; zero; zero; n1; zero; zero;
      zero; zero; zero; zero; n1; zero;
      zero; zero; zero; zero; zero; n1 ].
(** src/impl/seismic/setups/ViscoElasticity.h 306-313 (2D), 487-504 (3D): values of the sparse matrix, taken from the dense one [a] *)
Definition srcSp (nDim : nat) (a : list T) : list T :=
  let g i := nth i a zero in
  if nDim =? 2 then [g 0; g 1; g 3; g 4; g 8]
  else [g 0; g 1; g 2; g 6; g 7; g 8; g 12; g 13; g 14; g 21; g 28; g 35].
End Src.

Local Notation nonzero := (Elastic.nonzero 0%Qc Qcopp qcltb).
Local Notation csr0 := (@Elastic.csr0 Qc).

(** src/impl/seismic/kernels/FakeMats.hpp 111-132.  The values of the material used there are not zero: they stand as ones here. *)
Definition srcCsrA (nDim : nat) : res (comp Qc) :=
  let nM := if nDim =? 2 then 3 else 6 in
  denseToCsr nonzero 0%Qc nM nM (srcDense 0%Qc nDim 1%Qc 1%Qc 1%Qc) None None csr0.
(** src/impl/seismic/kernels/FakeMats.hpp 139-155 *)
Definition fsCsrE (nDim : nat) : res (comp Qc) :=
  let nE := if nDim =? 2 then 5 else 9 in denseToCsr nonzero 0%Qc nE nE (repeat 1%Qc (nE * nE)) None None csr0.
(** src/impl/seismic/kernels/FakeMats.hpp 162-177 *)
Definition fsCsrA (nDim : nat) : res (comp Qc) :=
  let nM := if nDim =? 2 then 3 else 6 in let nE := if nDim =? 2 then 5 else 9 in denseToCsr nonzero 0%Qc nM nE (repeat 1%Qc (nM * nE)) None None csr0.

(** pointers and indices of the patterns *)
Record pats := { pE : list nat * list nat; pA : list nat * list nat; pS : list nat * list nat; pFE : list nat * list nat; pFA : list nat * list nat }.
(** src/impl/seismic/kernels/TimePredFused.hpp 225-227, 269-276, src/impl/seismic/kernels/VolIntFused.hpp 190-193, 232-240,
    src/impl/seismic/kernels/SurfIntFused.hpp 304-307, 326-329: patterns, checks of the number of non-zeros *)
Definition fakePats (nDim : nat) : res pats :=
  let nz (s : comp Qc) (n2 n3 : nat) := check (length (cVal s) =? (if nDim =? 2 then n2 else n3)) in
  e <- starCsrE 0%Qc 1%Qc Qcplus Qcminus Qcmult Qcdiv Qcopp qcltb nDim;; _ <- nz e 10 24;;
  a <- starCsrA 0%Qc 1%Qc Qcplus Qcmult Qcdiv Qcopp qcltb nDim;; _ <- nz a 4 9;;
  s <- srcCsrA nDim;; _ <- nz s 5 12;;
  f <- fsCsrE nDim;; _ <- nz f 25 81;;
  g <- fsCsrA nDim;; _ <- nz g 15 54;;
  Ok {| pE := (cPtr e, cIdx e); pA := (cPtr a, cIdx a); pS := (cPtr s, cIdx s); pFE := (cPtr f, cIdx f); pFA := (cPtr g, cIdx g) |}.
