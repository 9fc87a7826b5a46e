(** Dense matrix products (src/linalg/Matrix.h, src/data/MmVanilla.hpp).

    The scalar type and its operations are arbitrary: no law of arithmetic is assumed in this file.  The results thus also hold for
    floating point arithmetic, with the order of the operations as in the code. *)
From Verif Require Import Util.

Section Scalars.
Context {T : Type}.
Variables (add mul : T -> T -> T) (zero : T) (isz : T -> bool).

(** src/linalg/Matrix.h 253-274 *)
Definition matMulB0 (m n k : nat) (a b c : list T) : res (list T) :=
  c <- for_ 0 m (fun lm c => for_ 0 n (fun ln c => wr c (lm * n + ln) zero) c) c;;
  for_ 0 k (fun lk c => for_ 0 m (fun lm c => for_ 0 n (fun ln c =>
    x <- rd c (lm * n + ln);; y <- rd a (lm * k + lk);; z <- rd b (lk * n + ln);; wr c (lm * n + ln) (add x (mul y z))) c) c) c.

(** src/linalg/Matrix.h 307-314, 359-366: beta*C *)
Definition initC (r m n ldC : nat) (beta : T) (c : list T) : res (list T) :=
  for_ 0 m (fun lm c => for_ 0 n (fun ln c => for_ 0 r (fun lr c =>
    let id := lm * ldC * r + ln * r + lr in
    if negb (isz beta) then x <- rd c id;; wr c id (mul x beta) else wr c id zero) c) c) c.

(** src/linalg/Matrix.h 295-326 *)
Definition matMulFusedAC (r m n k ldA ldB ldC : nat) (alpha beta : T) (a b c : list T) : res (list T) :=
  c <- initC r m n ldC beta c;;
  for_ 0 k (fun lk c => for_ 0 m (fun lm c => for_ 0 n (fun ln c => for_ 0 r (fun lr c =>
    let id := lm * ldC * r + ln * r + lr in
    x <- rd c id;; y <- rd a (lm * ldA * r + lk * r + lr);; z <- rd b (lk * ldB + ln);; wr c id (add x (mul (mul alpha y) z))) c) c) c) c.

(** src/linalg/Matrix.h 347-378 *)
Definition matMulFusedBC (r m n k ldA ldB ldC : nat) (alpha beta : T) (a b c : list T) : res (list T) :=
  c <- initC r m n ldC beta c;;
  for_ 0 k (fun lk c => for_ 0 m (fun lm c => for_ 0 n (fun ln c => for_ 0 r (fun lr c =>
    let id := lm * ldC * r + ln * r + lr in
    x <- rd c id;; y <- rd a (lm * ldA + lk);; z <- rd b (lk * ldB * r + ln * r + lr);; wr c id (add x (mul (mul alpha y) z))) c) c) c) c.

(** src/linalg/Matrix.h 386-398 *)
Definition transposeDense (n : nat) (a : list T) : res (list T) :=
  for_ 0 n (fun ro a => for_ (ro + 1) n (fun co a =>
    let oId := ro * n + co in let nId := co * n + ro in
    tmp <- rd a oId;; y <- rd a nId;; a <- wr a oId y;; wr a nId tmp) a) a.

(** src/data/MmVanilla.hpp 52-93: a kernel *)
Record vanilla := { vM : nat; vN : nat; vK : nat; vLdA : nat; vLdB : nat; vLdC : nat; vAlpha : T; vBeta : T; vAC : bool; vBC : bool; vCrs : nat }.

(** src/data/MmVanilla.hpp 133-152: execution of a kernel *)
Definition vanillaRun (k : vanilla) (a b c : list T) : res (list T) :=
  if vAC k then matMulFusedAC (vCrs k) (vM k) (vN k) (vK k) (vLdA k) (vLdB k) (vLdC k) (vAlpha k) (vBeta k) a b c
  else if vBC k then matMulFusedBC (vCrs k) (vM k) (vN k) (vK k) (vLdA k) (vLdB k) (vLdC k) (vAlpha k) (vBeta k) a b c
  else Er Echeck.

(** src/data/MmVanilla.hpp 175-208: adds a kernel to a group; missing groups are created *)
Definition vanillaAdd (g : nat) (k : vanilla) (ks : list (list vanilla)) : res (list (list vanilla)) :=
  _ <- check ((vCrs k =? 1) || (vAC k || vBC k));;
  let ks := if length ks <=? g then ks ++ repeat [] (g + 1 - length ks) else ks in
  x <- rd ks g;; wr ks g (x ++ [k]).

End Scalars.
