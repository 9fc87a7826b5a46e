(** Shared memory parallelization: work regions, their packages, statuses, dynamic load balancing, NUMA-aware initialization.

    Models src/parallel/LoadBalancing.{h,cpp} and src/parallel/Shared.{h,cpp}.
    Simplifications: unbounded numbers; measured times and the arithmetic on them are those of an arbitrary structure [fops]
    (any floating point or exact arithmetic, whatever its rounding); the arrays of packages of a region are kept as three
    arrays (first, size, firstSp) instead of an array of structs; min / sum / max of the times, stored for printing only,
    are not part of the state; OpenMP barriers and flushes are not modelled. *)
From Verif Require Import Util Sparse SchedModel.

(** The operations on double used by balanceWrkRgn; no law is assumed. *)
Record fops := mkFops {
  F : Type;
  f0 : F;                       (* 0 *)
  f3343 : F;                    (* 3343 *)
  fbig : F;                     (* std::numeric_limits< double >::max() *)
  flow : F;                     (* std::numeric_limits< double >::lowest() *)
  zeroTime : F;                 (* m_zeroTime *)
  maxImb : F;                   (* m_maxImbalance *)
  fmin : F -> F -> F; fmax : F -> F -> F;
  fadd : F -> F -> F; fsub : F -> F -> F; fmul : F -> F -> F; fdiv : F -> F -> F;
  flt : F -> F -> bool; feq : F -> F -> bool;
  fnat : nat -> F;              (* std::size_t to double *)
  ftrunc : F -> nat             (* double to std::size_t *)
}.

(** Load balancing data of a work region. Models src/parallel/LoadBalancing.h:52-93 (WrkPkgLb, WrkRgnLb). *)
Record lbr := mkLbr {
  rFirst : nat; rSize : nat;
  pFirst : list nat;            (* wrkPkgs[.].first *)
  pSize : list nat;             (* wrkPkgs[.].size *)
  pSp : list (list nat);        (* wrkPkgs[.].firstSp[.] *)
  rFirstSp : list nat;          (* firstSp *)
  rSpDe : list (list nat)       (* spDe *)
}.

Section Balance.
Variables (O : fops) (nw : nat).

(** Models src/parallel/LoadBalancing.cpp:46-51, the while loop; [fuel] bounds the iterations. *)
Fixpoint spAdv (fuel : nat) (spDe : list nat) (lim sp : nat) : res nat :=
  if sp <? length spDe then
    d <- rd spDe sp ;;
    if d <? lim then match fuel with 0 => Er Efuel | S fuel => spAdv fuel spDe lim (S sp) end
    else Ok sp
  else Ok sp.

(** Models src/parallel/LoadBalancing.cpp:31-57 (resolveSpEn). *)
Definition resolveSpEn (r : lbr) : res lbr :=
  sps <- for_ 0 (length (rFirstSp r)) (fun ty sps =>
    f <- rd (rFirstSp r) ty ;;
    spDe <- rd (rSpDe r) ty ;;
    '(sps, sp) <- for_ 0 (length (pSp r)) (fun wp '(sps, sp) =>
      row <- rd sps wp ;;
      row <- wr row ty (f + sp) ;;
      sps <- wr sps wp row ;;
      a <- rd (pFirst r) wp ;;
      n <- rd (pSize r) wp ;;
      sp <- spAdv (length spDe) spDe (a + n) sp ;;
      Ok (sps, sp)) (sps, 0) ;;
    _ <- check (sp =? length spDe) ;;
    Ok sps) (pSp r) ;;
  Ok (mkLbr (rFirst r) (rSize r) (pFirst r) (pSize r) sps (rFirstSp r) (rSpDe r)).

(** Models src/parallel/LoadBalancing.cpp:124-130, one pass of the loop which takes entries away. *)
Definition removePass (n : nat) (st : list nat * nat) : res (list nat * nat) :=
  forb 0 nw (fun w '(sz, d) =>
    v <- rd sz w ;;
    '(sz, d) <- (if 0 <? v then sz <- wr sz w (v - 1) ;; Ok (sz, d - 1) else Ok (sz, d)) ;;
    Ok ((sz, d), d =? n)) st.

(** Models src/parallel/LoadBalancing.cpp:135-139, one pass of the loop which adds entries. *)
Definition addPass (n : nat) (st : list nat * nat) : res (list nat * nat) :=
  forb 0 nw (fun w '(sz, d) =>
    v <- rd sz w ;;
    sz <- wr sz w (S v) ;;
    Ok ((sz, S d), S d =? n)) st.

(** Models src/parallel/LoadBalancing.cpp:123-131. *)
Fixpoint removeLoop (fuel n : nat) (st : list nat * nat) : res (list nat * nat) :=
  if n <? snd st then
    match fuel with 0 => Er Efuel | S fuel => st <- removePass n st ;; removeLoop fuel n st end
  else Ok st.

(** Models src/parallel/LoadBalancing.cpp:134-140. *)
Fixpoint addLoop (fuel n : nat) (st : list nat * nat) : res (list nat * nat) :=
  if snd st <? n then
    match fuel with 0 => Er Efuel | S fuel => st <- addPass n st ;; addLoop fuel n st end
  else Ok st.

(** New sizes from sizes and times. Models src/parallel/LoadBalancing.cpp:99-140. *)
Definition distribute (n : nat) (sizes : list nat) (elapsed : list (F O)) : res (list nat) :=
  let through := map (fun p => fdiv O (fnat O (fst p)) (snd p)) (combine sizes elapsed) in
  let sum := fold_left (fadd O) through (f0 O) in
  let sz := map (fun t => if feq O sum (f0 O) then 0 else ftrunc O (fmul O (fdiv O t sum) (fnat O n))) through in
  let d := list_sum sz in
  '(sz, d) <- removeLoop (d - n) n (sz, d) ;;
  '(sz, d) <- addLoop (n - d) n (sz, d) ;;
  Ok sz.

(** Models src/parallel/LoadBalancing.cpp:143-146; the array of firsts is overwritten entirely. *)
Definition firsts (first : nat) (sizes old : list nat) : res (list nat) :=
  fs <- wr old 0 first ;;
  for_ 1 nw (fun w fs => a <- rd fs (w - 1) ;; n <- rd sizes (w - 1) ;; wr fs w (a + n)) fs.

(** Models src/parallel/LoadBalancing.cpp:63-154 (balanceWrkRgn); [elapsed]: the times measured for the workers. *)
Definition balanceWrkRgn (r : lbr) (elapsed : list (F O)) : res lbr :=
  let mn := fold_left (fmin O) elapsed (fbig O) in
  let mx := fold_left (fmax O) elapsed (flow O) in
  let sm := fold_left (fadd O) elapsed (f0 O) in
  let imb := fdiv O (fsub O mx mn) (fmax O (fdiv O sm (fnat O nw)) (zeroTime O)) in
  let go sizes elapsed :=
    sz <- distribute (rSize r) sizes elapsed ;;
    fs <- firsts (rFirst r) sz (pFirst r) ;;
    a <- rd fs (nw - 1) ;; n <- rd sz (nw - 1) ;;
    _ <- check (a + n =? rFirst r + rSize r) ;;
    resolveSpEn (mkLbr (rFirst r) (rSize r) fs sz (pSp r) (rFirstSp r) (rSpDe r)) in
  if flt O mn (zeroTime O) then go (repeat 1 nw) (repeat (f3343 O) nw)
  else if flt O imb (maxImb O) then Ok r
  else go (pSize r) elapsed.

(** Models src/parallel/LoadBalancing.h:161-216 (regWrkRgn) up to the insertion, and the initial balancing; new timers
    show 0 (src/monitor/Timer.hpp:65). The initial first and size of the packages are the largest std::size_t in the code;
    they are not read. *)
Definition newRgn (first size : nat) (types : list N) (chars : list N) : res lbr :=
  '(fsp, spde) <- for_ 0 (length types) (fun ty '(fsp, spde) =>
    t <- rd types ty ;;
    f <- nSp first t chars ;;
    n <- nSp size t (skipn first chars) ;;
    l <- linkSpDe size t (skipn first chars) (repeat 0 n) ;;
    Ok (fsp ++ [f], spde ++ [map (fun d => d + first) l])) ([], []) ;;
  let mx := 0 in
  balanceWrkRgn (mkLbr first size (repeat mx nw) (repeat mx nw) (repeat (repeat 0 (length types)) nw) fsp spde)
                (repeat (f0 O) nw).

(* ------------------------------------------------------------------ *)

(** A work region. Models src/parallel/Shared.h:66-85 (WrkRgn); [wst]: status of the packages of the workers. *)
Record wrgn := mkWrgn { wId : nat; wStep : nat; wTg : nat; wPrio : Z; wStat : list status }.

(** Models src/parallel/Shared.h:88-91 (m_wrkRgns, m_balancing). *)
Record shared := mkShared { rgns : list wrgn; lbs : list lbr }.

(** arguments of regWrkRgn *)
Record regArgs := mkReg { aTg : nat; aStep : nat; aId : nat; aFirst : nat; aSize : nat; aPrio : Z; aTypes : list N; aChars : list N }.

Definition insert {A} (l : list A) (p : nat) (x : A) : list A := firstn p l ++ x :: skipn p l.

(** Models src/parallel/Shared.h:206-214, the position of the new region. *)
Fixpoint regPos (l : list wrgn) (prio : Z) : nat :=
  match l with
  | [] => 0
  | r :: l => if (wPrio r <? prio)%Z then 0 else S (regPos l prio)
  end.

(** Models src/parallel/Shared.h:179-231 (regWrkRgn). *)
Definition regWrkRgn (a : regArgs) (s : shared) : res shared :=
  let p := regPos (rgns s) (aPrio a) in
  r <- newRgn (aFirst a) (aSize a) (aTypes a) (aChars a) ;;
  _ <- check (p <=? length (lbs s)) ;;
  Ok (mkShared (insert (rgns s) p (mkWrgn (aId a) (aStep a) (aTg a) (aPrio a) (repeat WAI nw))) (insert (lbs s) p r)).

(** Models src/parallel/Shared.cpp:116-123 (getWrkRgn). *)
Fixpoint getWrkRgn (l : list wrgn) (id : nat) : res nat :=
  match l with
  | [] => Er Echeck
  | r :: l => if wId r =? id then Ok 0 else p <- getWrkRgn l id ;; Ok (S p)
  end.

Definition setStat (s : shared) (p : nat) (r : wrgn) (st : list status) : shared :=
  mkShared (upd (rgns s) p (mkWrgn (wId r) (wStep r) (wTg r) (wPrio r) st)) (lbs s).

(** Models src/parallel/Shared.cpp:170-193 (setStatusAll). *)
Definition setStatusAll (v : status) (id : nat) (s : shared) : res shared :=
  p <- getWrkRgn (rgns s) id ;;
  r <- rd (rgns s) p ;;
  st <- for_ 0 nw (fun w st =>
    o <- rd st w ;;
    _ <- check (status_eqb v RDY && (status_eqb o FIN || status_eqb o WAI)) ;;
    wr st w v) (wStat r) ;;
  Ok (setStat s p r st).

(** Models src/parallel/Shared.cpp:195-211 (resetStatus). *)
Definition resetStatus (v : status) (s : shared) : res shared :=
  Ok (mkShared (map (fun r => mkWrgn (wId r) (wStep r) (wTg r) (wPrio r) (repeat v nw)) (rgns s)) (lbs s)).

(** Models src/parallel/Shared.cpp:213-246 (setStatusTd) for worker [w], without the clocks. *)
Definition setStatusTd (v : status) (id w : nat) (s : shared) : res shared :=
  p <- getWrkRgn (rgns s) id ;;
  r <- rd (rgns s) p ;;
  o <- rd (wStat r) w ;;
  _ <- check (match v with IPR => status_eqb o RDY | FIN => status_eqb o IPR | _ => false end) ;;
  st <- wr (wStat r) w v ;;
  Ok (setStat s p r st).

(** Models src/parallel/Shared.cpp:248-265 (getStatusAll). *)
Definition getStatusAll (v : status) (id : nat) (s : shared) : res bool :=
  p <- getWrkRgn (rgns s) id ;;
  r <- rd (rgns s) p ;;
  Ok (forallb (fun o => status_eqb o v) (firstn nw (wStat r))).

(** Models src/parallel/LoadBalancing.cpp:156-159 (balance) and src/parallel/Shared.cpp:267-271;
    [el]: the times measured for the regions and workers. *)
Definition balance (el : list (list (F O))) (s : shared) : res shared :=
  l <- for_ 0 (length (lbs s)) (fun i l => r <- rd l i ;; e <- rd el i ;; r <- balanceWrkRgn r e ;; wr l i r) (lbs s) ;;
  Ok (mkShared (rgns s) l).

(** what getWrkTd returns *)
Record work := mkWork { oTg : nat; oStep : nat; oId : nat; oFirst : nat; oSize : nat; oFirstSp : list nat }.

(** Models src/parallel/LoadBalancing.h:230-242 (getWrkTd). *)
Definition lbGetWrkTd (l : list lbr) (p w : nat) : res (nat * nat * list nat) :=
  r <- rd l p ;; a <- rd (pFirst r) w ;; n <- rd (pSize r) w ;; sp <- rd (pSp r) w ;; Ok (a, n, sp).

(** Models src/parallel/Shared.cpp:125-168 (getWrkTd) for worker [w]; [p]: position of the first region of [l]. *)
Fixpoint getWrkTdFrom (l : list wrgn) (lb : list lbr) (p w : nat) : res (option work) :=
  match l with
  | [] => Ok None
  | r :: l =>
      o <- rd (wStat r) w ;;
      if status_eqb o RDY then
        '(a, n, sp) <- lbGetWrkTd lb p w ;; Ok (Some (mkWork (wTg r) (wStep r) (wId r) a n sp))
      else getWrkTdFrom l lb (S p) w
  end.
Definition getWrkTd (s : shared) (w : nat) : res (option work) := getWrkTdFrom (rgns s) (lbs s) 0 w.

(** Operations of the interface which change the state. *)
Inductive op :=
| OReg (a : regArgs)
| OSetAll (v : status) (id : nat)
| OSetTd (v : status) (id w : nat)
| OReset (v : status)
| OBal (el : list (list (F O))).

Definition apply (o : op) (s : shared) : res shared :=
  match o with
  | OReg a => regWrkRgn a s
  | OSetAll v id => setStatusAll v id s
  | OSetTd v id w => setStatusTd v id w s
  | OReset v => resetStatus v s
  | OBal el => balance el s
  end.

Fixpoint run (os : list op) (s : shared) : res shared :=
  match os with
  | [] => Ok s
  | o :: os => s <- apply o s ;; run os s
  end.

Definition shared0 : shared := mkShared [] [].

End Balance.

(* ------------------------------------------------------------------ *)

(** Range of worker [w]: offset and number of entries. Models src/parallel/Shared.h:322-335 (numaInit). *)
Definition numaRange (n nw w : nat) : nat * nat :=
  let split := n / nw in
  let rem := n mod nw in
  let start := split * w in
  let start := if 0 <? rem then start + Nat.min rem w else start in
  (start, if w <? rem then split + 1 else split).

(** Worker [w] zeroes its range. Models src/parallel/Shared.h:309-346 (numaInit). *)
Definition numaInit1 {A} (zero : A) (n nw w off : nat) (arr : list A) : res (list A) :=
  let '(a, k) := numaRange n nw w in
  for_ 0 k (fun i arr => wr arr (off + a + i) zero) arr.

(** All workers, in the order [ws] in which they enter the critical section. *)
Fixpoint numaInit {A} (zero : A) (n nw off : nat) (ws : list nat) (arr : list A) : res (list A) :=
  match ws with
  | [] => Ok arr
  | w :: ws => arr <- numaInit1 zero n nw w off arr ;; numaInit zero n nw off ws arr
  end.

(** One loop over the time groups (inner or send). Models src/parallel/Shared.h:373-390; [ord]: order of the workers in the
    critical section, for every time group. *)
Definition numaInitLoop {A} (zero : A) (nTgs nVas nw : nat) (sizes : list nat) (ord : nat -> list nat) (st : list A * nat)
  : res (list A * nat) :=
  for_ 0 nTgs (fun tg '(arr, off) =>
    n <- rd sizes tg ;;
    arr <- numaInit zero (n * nVas) nw off (ord tg) arr ;;
    Ok (arr, off + n * nVas)) st.

(** Models src/parallel/Shared.h:365-392 (numaInit for time groups). *)
Definition numaInitTgs {A} (zero : A) (nTgs : nat) (nIn nSe : list nat) (nVas nw : nat) (ordI ordS : nat -> list nat)
  (arr : list A) : res (list A) :=
  '(arr, off) <- numaInitLoop zero nTgs nVas nw nIn ordI (arr, 0) ;;
  '(arr, _) <- numaInitLoop zero nTgs nVas nw nSe ordS (arr, off) ;;
  Ok arr.
