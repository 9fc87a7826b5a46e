(** Kernels generated by LIBXSMM (src/data/MmXsmmSingle.hpp, src/data/MmXsmmFused.hpp).

    LIBXSMM itself is not part of the code: its functions are a parameter ([xsmm]), XsmmSpec.v states what is assumed of it.
    Simplifications: alpha is 1 and beta is 0 or 1 (the only values used, see the comments of the parameters); no prefetching, flops and
    statistics; the generation of a kernel does not fail (lines 112, 146: EDGE_CHECK). *)
From Verif Require Import Util MatSparse.

(** libxsmm_gemm_descriptor: C(m x n) = A(m x k) * B(k x n) + [acc] C *)
Record gdesc := { gM : nat; gN : nat; gK : nat; gLdA : nat; gLdB : nat; gLdC : nat; gAcc : bool }.

(** Kernels of LIBXSMM: dense, packed with A in CSR format, packed with B in CSC format.  The values of the sparse matrix are given at run time. *)
Record xsmm (T : Type) := {
  xGemm : gdesc -> list T -> list T -> list T -> res (list T);
  xCsr : gdesc -> nat -> list nat -> list nat -> list T -> list T -> list T -> res (list T);
  xCsc : gdesc -> nat -> list nat -> list nat -> list T -> list T -> list T -> res (list T) }.
Arguments xGemm {T}. Arguments xCsr {T}. Arguments xCsc {T}.

(** src/data/MmXsmmSingle.hpp 93-109, src/data/MmXsmmFused.hpp 120-143: missing groups are created, the kernel is added to the group *)
Definition xAdd {X} (g : nat) (k : X) (ks : list (list X)) : res (list (list X)) :=
  let ks := if length ks <=? g then ks ++ repeat [] (g + 1 - length ks) else ks in
  x <- rd ks g;; wr ks g (x ++ [k]).
Definition xKern {X} (ks : list (list X)) (g i : nat) : res X := k <- rd ks g;; rd k i.

(** src/data/MmXsmmFused.hpp 100-158, 296-354: a packed kernel with a sparse matrix: CSR (true) or CSC, pointers and indices, number of simulations *)
Record packed := { kCsr : bool; kD : gdesc; kPtr : list nat; kIdx : list nat; kCrs : nat }.
Definition xRun {T} (L : xsmm T) (k : packed) : list T -> list T -> list T -> res (list T) :=
  if kCsr k then xCsr L (kD k) (kCrs k) (kPtr k) (kIdx k) else xCsc L (kD k) (kCrs k) (kPtr k) (kIdx k).
