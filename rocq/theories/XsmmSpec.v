(** Specification of LIBXSMM: what the code relies on.

    [dense]: column-major matrix product.  [packedCsr], [packedCsc]: row-major products of a dense with a sparse matrix, where the dense
    matrices hold the values of all simulations in their entries.  The weak reading is used for beta = 0: LIBXSMM may either set those parts
    of C to zero, which get no contribution of any entry of the sparse matrix, or leave them alone. *)
From Verif Require Import Util MeshConn MatMul Props_Mat MatSparse Props_MatSparse MmXsmm Ader AderSpec.

Section Spec.
Context {T : Type}.
Variable A : alg T.
Local Notation zero := (aZero A).
Local Notation add := (aAdd A).
Local Notation mul := (aMul A).
Local Notation sum := (sum A).

(** the part of C which is kept *)
Definition kept (d : gdesc) (v : T) : T := if gAcc d then v else zero.

Definition dense (f : gdesc -> list T -> list T -> list T -> res (list T)) : Prop := forall d a b c,
  gM d <= gLdC d ->
  (forall i l, i < gM d -> l < gK d -> l * gLdA d + i < length a) ->
  (forall l j, l < gK d -> j < gN d -> j * gLdB d + l < length b) ->
  (forall i j, i < gM d -> j < gN d -> j * gLdC d + i < length c) ->
  exists c', f d a b c = Ok c' /\ length c' = length c /\
    (forall i j, i < gM d -> j < gN d ->
      nth (j * gLdC d + i) c' zero = add (kept d (nth (j * gLdC d + i) c zero)) (sum (gK d) (fun l => mul (nth (l * gLdA d + i) a zero) (nth (j * gLdB d + l) b zero)))) /\
    (forall p, (forall i j, i < gM d -> j < gN d -> p <> j * gLdC d + i) -> nth p c' zero = nth p c zero).

(** Pointers and indices of [n] rows (or columns) with entries in [0,k), and enough values. *)
Definition pattern (n k : nat) (ptr idx : list nat) (vals : list T) : Prop :=
  length ptr = S n /\ (forall i, i < n -> nth i ptr 0 <= nth (S i) ptr 0) /\ nth n ptr 0 <= length idx /\ nth n ptr 0 <= length vals /\
  forall p, p < nth n ptr 0 -> nth p idx 0 < k.
(** entry [j] of row (or column) [i]: sum of the values which are stored for it *)
Definition spv (ptr idx : list nat) (vals : list T) (i j : nat) : T :=
  sum (nth (S i) ptr 0 - nth i ptr 0) (fun p => if nth (nth i ptr 0 + p) idx 0 =? j then nth (nth i ptr 0 + p) vals zero else zero).
Definition noEntry (ptr : list nat) (i : nat) : Prop := nth i ptr 0 = nth (S i) ptr 0.

(** C = A*B + beta*C, A: m x k in CSR format, B: [k][ldB][r], C: [m][ldC][r] *)
Definition packedCsr (f : gdesc -> nat -> list nat -> list nat -> list T -> list T -> list T -> res (list T)) : Prop := forall d r ptr idx a b c,
  pattern (gM d) (gK d) ptr idx a -> gN d <= gLdC d -> covers r (gK d) (gN d) (gLdB d) b -> covers r (gM d) (gN d) (gLdC d) c ->
  exists c', f d r ptr idx a b c = Ok c' /\ length c' = length c /\
    (forall x y z, x < gM d -> y < gN d -> z < r ->
      let o := nth (pos r (gLdC d) x y z) c zero in let v := nth (pos r (gLdC d) x y z) c' zero in
      v = add (kept d o) (sum (gK d) (fun l => mul (spv ptr idx a x l) (nth (pos r (gLdB d) l y z) b zero))) \/ noEntry ptr x /\ v = o) /\
    (forall p, (forall x y z, x < gM d -> y < gN d -> z < r -> p <> pos r (gLdC d) x y z) -> nth p c' zero = nth p c zero).

(** C = A*B + beta*C, A: [m][ldA][r], B: k x n in CSC format, C: [m][ldC][r] *)
Definition packedCsc (f : gdesc -> nat -> list nat -> list nat -> list T -> list T -> list T -> res (list T)) : Prop := forall d r ptr idx a b c,
  pattern (gN d) (gK d) ptr idx b -> gN d <= gLdC d -> covers r (gM d) (gK d) (gLdA d) a -> covers r (gM d) (gN d) (gLdC d) c ->
  exists c', f d r ptr idx a b c = Ok c' /\ length c' = length c /\
    (forall x y z, x < gM d -> y < gN d -> z < r ->
      let o := nth (pos r (gLdC d) x y z) c zero in let v := nth (pos r (gLdC d) x y z) c' zero in
      v = add (kept d o) (sum (gK d) (fun l => mul (nth (pos r (gLdA d) x l z) a zero) (spv ptr idx b y l))) \/ noEntry ptr y /\ v = o) /\
    (forall p, (forall x y z, x < gM d -> y < gN d -> z < r -> p <> pos r (gLdC d) x y z) -> nth p c' zero = nth p c zero).

Definition xsmmSpec (L : xsmm T) : Prop := dense (xGemm L) /\ packedCsr (xCsr L) /\ packedCsc (xCsc L).
End Spec.
