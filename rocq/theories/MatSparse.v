(** Sparse matrices (src/linalg/Matrix.h).

    The type of the values is arbitrary.  [big v] stands for |v| > tol, [small v] for |v| < tol, [isMax v] for v == max().
    Simplifications: the three vectors (row, column, value) of the coordinate format are one list of entries; the value type of the
    dense matrix is the one of the sparse formats (real_base); no overflow of the 32-bit sizes. *)
From Verif Require Import Util.

Section Sparse.
Context {T : Type}.

(** src/linalg/Matrix.h 38-53: entry (row, column, value) of the coordinate format *)
Definition entry := (nat * nat * T)%type.
Definition ro (e : entry) : nat := fst (fst e).
Definition co (e : entry) : nat := snd (fst e).
Definition nz (e : entry) : T := snd e.

(** src/linalg/Matrix.h 65-72, 84-91: compressed formats: values, pointers, indices *)
Record comp := { cVal : list T; cPtr : list nat; cIdx : list nat }.

(** std::vector::resize: keeps the leading values, new values are [d] *)
Definition resize {A} (d : A) (n : nat) (l : list A) : list A := firstn n l ++ repeat d (n - length l).

(** src/linalg/Matrix.h 407-434 *)
Definition transposeCrd (m : list entry) : res (list entry) :=
  let '(nRo, nCo) := fold_left (fun s e => (Nat.max (fst s) (ro e), Nat.max (snd s) (co e))) m (0, 0) in
  for_ 0 (nCo + 1) (fun r o => for_ 0 (nRo + 1) (fun c o => for_ 0 (length m) (fun i o =>
    e <- rd m i;; Ok (if (ro e =? c) && (co e =? r) then o ++ [(r, c, nz e)] else o)) o) o) [].

(** bounds of a block, row and column; None is numeric_limits::max() *)
Definition block := ((option nat * option nat) * (option nat * option nat))%type.

(** src/linalg/Matrix.h 551-559: the entry is in the requested bounds *)
Definition inBounds (b : block) (e : entry) : bool :=
  let geq x lo := match lo with Some l => l <=? x | None => true end in
  let leq x hi := match hi with Some h => x <=? h | None => true end in
  geq (ro e) (fst (fst b)) && leq (ro e) (snd (fst b)) && geq (co e) (fst (snd b)) && leq (co e) (snd (snd b)).

(** src/linalg/Matrix.h 562-574: new extrema *)
Definition extend (o : block) (e : entry) : block :=
  let lower x o := match o with Some l => if x <? l then Some x else o | None => Some x end in
  let upper x o := match o with Some h => if h <? x then Some x else o | None => Some x end in
  ((lower (ro e) (fst (fst o)), upper (ro e) (snd (fst o))), (lower (co e) (fst (snd o)), upper (co e) (snd (snd o)))).

(** src/linalg/Matrix.h 542-576 (a row or column with the number 2^32-1 is not modelled) *)
Definition getBlockNz (m : list entry) (b : block) : block :=
  fold_left (fun o e => if inBounds b e then extend o e else o) m ((None, None), (None, None)).

(** src/linalg/Matrix.h 585-598 *)
Definition getNnzCrd (nR nC : nat) (m : list entry) : nat :=
  fold_left (fun n e => if (ro e <? nR) && (co e <? nC) then n + 1 else n) m 0.

Variables (big small isMax : T -> bool) (zero maxv : T).

(** src/linalg/Matrix.h 611-633 *)
Definition denseToCrd (nR nC : nat) (a : list T) : res (list entry) :=
  for_ 0 nR (fun r o => for_ 0 nC (fun c o =>
    v <- rd a (r * nC + c);; Ok (if big v then o ++ [(r, c, v)] else o)) o) [].

(** src/linalg/Matrix.h 643-675; [old]: previous content of the output.  State: values, pointers, indices, number of entries seen. *)
Definition crdToCsr (nR nC : nat) (m : list entry) (old : comp) : res comp :=
  let nnz := getNnzCrd nR nC m in
  '(va, pt, id, _) <- for_ 0 nR (fun r s => let '(va, pt, id, el) := s in
      pt <- wr pt r el;;
      for_ 0 nC (fun c s => for_ 0 (length m) (fun i s => let '(va, pt, id, el) := s in
        e <- rd m i;;
        if (r =? ro e) && (c =? co e) then va <- wr va el (nz e);; id <- wr id el (co e);; Ok (va, pt, id, el + 1) else Ok s) s) (va, pt, id, el))
    (resize zero nnz (cVal old), resize 0 (nR + 1) (cPtr old), resize 0 nnz (cIdx old), 0);;
  pt <- wr pt nR nnz;; Ok {| cVal := va; cPtr := pt; cIdx := id |}.

(** src/linalg/Matrix.h 685-718 *)
Definition crdToCsc (nR nC : nat) (m : list entry) (old : comp) : res comp :=
  let nnz := getNnzCrd nR nC m in
  '(va, pt, id, _) <- for_ 0 nC (fun c s => let '(va, pt, id, el) := s in
      pt <- wr pt c el;;
      for_ 0 nR (fun r s => for_ 0 (length m) (fun i s => let '(va, pt, id, el) := s in
        e <- rd m i;;
        if (r =? ro e) && (c =? co e) then va <- wr va el (nz e);; id <- wr id el (ro e);; Ok (va, pt, id, el + 1) else Ok s) s) (va, pt, id, el))
    (resize zero nnz (cVal old), resize 0 (nC + 1) (cPtr old), resize 0 nnz (cIdx old), 0);;
  pt <- wr pt nC nnz;; Ok {| cVal := va; cPtr := pt; cIdx := id |}.

(** src/linalg/Matrix.h 768-800: first pass of the fill-in for the columns [lo] to [hi] (exclusive) from row [i] on; rows of a found
    block of four are skipped. *)
Definition get4 (nR j i : nat) (f : list nat) : res (nat * nat * nat * nat) :=
  a <- rd f (j * nR + (i + 0));; b <- rd f (j * nR + (i + 1));; c <- rd f (j * nR + (i + 2));; d <- rd f (j * nR + (i + 3));; Ok (a, b, c, d).
Definition set4 (nR j i : nat) (f : list nat) : res (list nat) :=
  f <- wr f (j * nR + (i + 0)) 10;; f <- wr f (j * nR + (i + 1)) 10;; f <- wr f (j * nR + (i + 2)) 10;; wr f (j * nR + (i + 3)) 10.
Definition pad3 (nR lo hi i : nat) (s : list nat * bool) : res (list nat * bool) :=
  for_ lo hi (fun j s => '(a, b, c, d) <- get4 nR j i (fst s);;
    if a + b + c + d =? 3 then f <- set4 nR j i (fst s);; Ok (f, true) else Ok s) s.
Fixpoint pass1 (fuel nR lo hi i : nat) (f : list nat) : res (list nat) :=
  if nR <=? i then Ok f else
  match fuel with
  | O => Er Efuel
  | S fuel =>
      if nR <=? i + 3 then pass1 fuel nR lo hi (i + 1) f
      else '(f, q) <- for_ lo hi (fun j s => '(a, b, c, d) <- get4 nR j i (fst s);;
             if (a =? 1) && (b =? 1) && (c =? 1) && (d =? 1) then f <- set4 nR j i (fst s);; Ok (f, true) else Ok s) (f, false);;
           if (q : bool) then '(f, _) <- pad3 nR lo hi i (f, true);; pass1 fuel nR lo hi (i + 3 + 1) f
           else pass1 fuel nR lo hi (i + 1) f
  end.

(** src/linalg/Matrix.h 802-833: second pass *)
Fixpoint pass2 (fuel nR lo hi i : nat) (f : list nat) : res (list nat) :=
  if nR <=? i then Ok f else
  match fuel with
  | O => Er Efuel
  | S fuel =>
      if nR <=? i + 3 then pass2 fuel nR lo hi (i + 1) f
      else q <- for_ lo hi (fun j q => a <- rd f (j * nR + (i + 0));; Ok (if a =? 10 then true else q)) false;;
           '(f, q) <- (if (q : bool) then Ok (f, true) else pad3 nR lo hi i (f, false));;
           pass2 fuel nR lo hi (if (q : bool) then i + 3 + 1 else i + 1) f
  end.

(** src/linalg/Matrix.h 764-836: loop over the chunks of columns; the upper bound of the columns is [lim - pro] as in the code.  The
    unsigned subtraction must not wrap. *)
Fixpoint chunks (fuel nR maxCo size pro lim : nat) (f : list nat) : res (list nat) :=
  if pro <? maxCo then
    match fuel with
    | O => Er Efuel
    | S fuel =>
        if lim <? pro then Er Eub else
        f <- pass1 nR nR pro (lim - pro) 0 f;;
        f <- pass2 nR nR pro (lim - pro) 0 f;;
        chunks fuel nR maxCo size (pro + size) (Nat.min (pro + size + size) maxCo) f
    end
  else Ok f.

(** src/linalg/Matrix.h 730-859; [out]: content of the output before the call *)
Definition fillInQfma (nR nC : nat) (a out : list T) : res (list T) :=
  f <- for_ 0 nC (fun j f => for_ 0 nR (fun i f => v <- rd a (i * nC + j);; wr f (j * nR + i) (if big v then 1 else 0)) f) (repeat 0 (nR * nC));;
  maxCo <- for_ 0 nC (fun j mc => for_ 0 nR (fun i mc => x <- rd f (j * nR + i);; Ok (if 0 <? x then j + 1 else mc)) mc) 0;;
  let n := if maxCo mod 28 =? 0 then maxCo / 28 else maxCo / 28 + 1 in
  if n =? 0 then Ok out
  else
    let size := if maxCo mod n =? 0 then maxCo / n else maxCo / n + 1 in
    f <- chunks maxCo nR maxCo size 0 size f;;
    for_ 0 nC (fun j o => for_ 0 nR (fun i o =>
      v <- rd a (i * nC + j);; o <- wr o (i * nC + j) v;;
      x <- rd f (j * nR + i);; if (0 <? x) && small v then wr o (i * nC + j) maxv else Ok o) o) out.

Definition orElse (o : option nat) (d : nat) : nat := match o with Some x => x | None => d end.

(** src/linalg/Matrix.h 875-896; [subR], [subC]: size of the sub-matrix, None is numeric_limits::max() *)
Definition denseToCsr (nR nC : nat) (a : list T) (subR subC : option nat) (old : comp) : res comp :=
  m <- denseToCrd nR nC a;; crdToCsr (orElse subR nR) (orElse subC nC) m old.

(** src/linalg/Matrix.h 913-958; [qfma]: fill-in "qfma", otherwise "none" *)
Definition denseToCsc (nR nC : nat) (a : list T) (subR subC : option nat) (qfma : bool) (old : comp) : res comp :=
  tmp <- for_ 0 (nR * nC) (fun i t => v <- rd a i;; wr t i v) (repeat zero (nR * nC));;
  tmp <- (if qfma then fillInQfma nR nC a tmp else Ok tmp);;
  m <- denseToCrd nR nC tmp;;
  s <- crdToCsc (orElse subR nR) (orElse subC nC) m old;;
  va <- for_ 0 (length (cVal s)) (fun i va => v <- rd va i;; if isMax v then _ <- check qfma;; wr va i zero else Ok va) (cVal s);;
  Ok {| cVal := va; cPtr := cPtr s; cIdx := cIdx s |}.

End Sparse.
Arguments entry T : clear implicits.
Arguments comp T : clear implicits.
