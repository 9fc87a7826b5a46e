(** Element updates of the ADER-DG solver for seismic wave propagation with local time stepping: model of
    edge::seismic::solvers::AderDg::local and neigh (src/impl/seismic/solvers/AderDg.hpp).

    Per-element arrays are lists over the elements, a null pointer in [t1], [t2] is an empty list (whose access fails).  The part of
    a send or receive buffer for one face is a list of one or two arrays [qt][md][cr] instead of an array [2*qt][md][cr]; a null
    pointer is [None].  The loops over the elements of different workers are not interleaved here (see Lts, SeisProps).
    Simplifications: prefetching is not modelled; the content of local arrays is given by [jA], [jDer], [jT] and is arbitrary;
    the arrays of local variables do not persist; the times at which receivers are sampled are given ([pts]). *)
From Verif Require Import Util MeshConn MatMul Sparse Lts Ader.

Section El.
Context {T : Type}.
Variables (zero one : T) (add sub mul div : T -> T -> T) (ofN : nat -> T) (isz : T -> bool).
Variable cf : conf.

Local Notation nMd := (nModes (cEl cf) (cSp cf)).
Local Notation nMdFa := (nModesFa (cEl cf) (cSp cf)).
Local Notation nFa := (nElFas (cEl cf)).
Local Notation nE := (nQtsE (cEl cf)).
Local Notation nM := (nQtsM (cEl cf)).
Local Notation nCr := (cCrs cf).
Local Notation nRm := (cRms cf).

(** Matrix kernels and matrices of the kernels.  Models src/impl/seismic/kernels/Kernels.hpp (members m_time, m_volInt, m_surfInt). *)
Record kernels := { kTime : list (list (@vanilla T)); kVol : list (list (@vanilla T)); kSurf : list (list (@vanilla T));
  kStT : list (list (list T)); kSt : list (list T); kLN : list (list T); kFT : list (list T); kRf : list T }.
(** The kernels for given matrices: transposed stiffness matrices, stiffness matrices (multiplied by the inverse mass matrix), flux
    matrices, relaxation frequencies.  Models Kernels.hpp:138-142 (constructor). *)
Definition mkKernels (opp : T -> T) (stT st ln ft : list (list T)) (rf : list T) : res kernels :=
  kt <- genTime zero one cf;; kv <- genVol zero one cf;; ks <- genSurf zero one cf;;
  Ok {| kTime := kt; kVol := kv; kSurf := ks; kStT := storeStiffT opp cf stT; kSt := st; kLN := ln; kFT := ft; kRf := rf |}.
(** Matrices of all elements; [fsE], [fsA]: own and neighbouring flux solvers.  Models AderDg.hpp:98-130 (members m_starE, m_starA,
    m_srcA, m_fsE, m_fsA); m_srcA is split by elements. *)
Record solver := { mStarE : list (list (list T)); mStarA : list (list (list T)); mSrcA : list (list (list T));
  mFsE0 : list (list (list T)); mFsE1 : list (list (list T)); mFsA0 : list (list (list T)); mFsA1 : list (list (list T)) }.
(** Scratch memory of a worker: tRes[0], dBuf, tResSurf[0], tResSurf[1] *)
Record scratch := { sTmp : list T; sDer : list (list T); sFa0 : list T; sFa1 : list T }.
(** Uninitialized local arrays *)
Record junk := { jA : list T; jDer : list (list (list T)); jT : list (list T); jE : list T }.

Definition buffer := option (list (list T)).
(** State of the local step: elastic and anelastic DOFs, the three time buffers, the send buffers, what was written for receivers *)
Record lstate := { lE : list (list T); lA : list (list (list T)); l0 : list (list T); l1 : list (list T); l2 : list (list T);
  lSend : list buffer; lRec : list (list T); lScr : scratch }.

(** o += i, o -= i; l_upA = a - b.  Models AderDg.hpp:393-404, 451-463 (the nest of loops is one loop over the contiguous array), 659-672. *)
Definition addE (i o : list T) : res (list T) := loop3 cf nE nMd (fun p o => y <- rd o p;; x <- rd i p;; wr o p (add y x)) o.
Definition subFa (i o : list T) : res (list T) := for_ 0 (nE * nMdFa * nCr) (fun p o => y <- rd o p;; x <- rd i p;; wr o p (sub y x)) o.
Definition diffE (a b o : list T) : res (list T) := loop3 cf nE nMd (fun p o => x <- rd a p;; y <- rd b p;; wr o p (sub x y)) o.

(** Data sent to the partition behind face [fa].  Models AderDg.hpp:416-467; [vIds]: i_vIdElFaEl[l_el]; the face of the first
    argument of neighFluxInt is numeric_limits::max(). *)
Definition sendFace (K : kernels) (fl : ltsFlags) (c : N) (firstTs : bool) (vIds : list (option nat)) (t0 t1 t2 : list T) (fa : nat) (b : buffer) : res buffer :=
  match b with
  | None => Ok None
  | Some b =>
    vId <- rd vIds fa;; eq <- rd (fAdEq fl) fa;; lt <- rd (fAdLt fl) fa;;
    let flux t o := neighFluxInt zero add mul isz cf (kSurf K) (kLN K) (length (kLN K)) vId fa t o in
    b <- (if has c eq then o <- rd b 0;; o <- flux t0 o;; wr b 0 o
          else if has c lt then if firstTs then Ok b else o <- rd b 0;; o <- flux t1 o;; wr b 0 o
          else o <- rd b 0;; o <- flux t2 o;; b <- wr b 0 o;;
               p <- rd b 1;; p <- flux t0 p;; p <- subFa o p;; wr b 1 p);;
    Ok (Some b)
  end.

(** Samples of the receivers of an element.  Models AderDg.hpp:470-493; [pts]: what getRecvTimeRel returns until it is negative, none
    if the element has no receiver. *)
Definition sample (der : list (list T)) (pts : list T) (tmp : list T) (rc : list (list T)) : res (list T * list (list T)) :=
  for_ 0 (length pts) (fun i s => let '(tmp, rc) := s in
    t <- rd pts i;; p <- evalPred one add mul div ofN cf [t] der [tmp];; tmp <- rd p 0;; Ok (tmp, rc ++ [tmp])) (tmp, rc).

(** Local step of one element.  Models AderDg.hpp:361-533; [dt], [hdt]: i_dt and 0.5*i_dt converted to the precision of the DOFs. *)
Definition localEl (K : kernels) (S : solver) (fl : ltsFlags) (chars : list N) (vIds : list (list (option nat))) (firstTs : bool) (dt hdt : T)
    (pts : nat -> list T) (J : junk) (el : nat) (s : lstate) : res lstate :=
  c <- rd chars el;; stE <- rd (mStarE S) el;; stA <- (if 0 <? nRm then rd (mStarA S) el else Ok []);; srA <- rd (mSrcA S) el;;
  qE <- rd (lE s) el;; qA <- rd (lA s) el;; t0 <- rd (l0 s) el;;
  (* time prediction *)
  '(_, tmp, der, _, t0, tA) <- ckVanilla zero add mul div ofN isz cf (kTime K) (kStT K) (kRf K) dt stE stA srA qE qA (jA J) (sTmp (lScr s)) (sDer (lScr s)) (jDer J) t0 (jT J);;
  n0 <- wr (l0 s) el t0;;
  (* time buffers *)
  t1 <- rd (l1 s) el;;
  t1 <- (if has c (fElLt fl) then t1 <- (if firstTs then zeroE zero cf nE t1 else Ok t1);; addE t0 t1 else Ok t1);;
  n1 <- wr (l1 s) el t1;;
  t2 <- rd (l2 s) el;;
  t2 <- (if has c (fElGt fl) then integrate add mul div ofN cf hdt der t2 else Ok t2);;
  n2 <- wr (l2 s) el t2;;
  (* send buffers *)
  v <- rd vIds el;;
  nS <- for_ 0 nFa (fun fa sd => b <- rd sd (el * nFa + fa);; b <- sendFace K fl c firstTs v t0 t1 t2 fa b;; wr sd (el * nFa + fa) b) (lSend s);;
  (* receivers *)
  '(tmp, rc) <- sample der (pts el) tmp (lRec s);;
  (* volume and local surface *)
  '(qE, qA, tmp) <- volInt zero add sub mul isz cf (kVol K) (kSt K) (kRf K) stE stA srA t0 tA (jA J) qE qA tmp;;
  fE <- rd (mFsE0 S) el;; fA <- (if 0 <? nRm then rd (mFsA0 S) el else Ok []);;
  '(qE, qA, x0, x1) <- surfLocal zero add mul isz cf (kSurf K) (kLN K) (kFT K) (kRf K) fE fA t0 (jA J) qE qA (sFa0 (lScr s)) (sFa1 (lScr s));;
  nqE <- wr (lE s) el qE;; nqA <- wr (lA s) el qA;;
  Ok {| lE := nqE; lA := nqA; l0 := n0; l1 := n1; l2 := n2; lSend := nS; lRec := rc; lScr := {| sTmp := tmp; sDer := der; sFa0 := x0; sFa1 := x1 |} |}.

(** Models AderDg.hpp:339-534 (local). *)
Definition local (K : kernels) (S : solver) fl chars vIds firstTs dt hdt pts J (first nEls : nat) (s : lstate) : res lstate :=
  for_ first (first + nEls) (localEl K S fl chars vIds firstTs dt hdt pts J) s.

(** Mesh and boundary conditions: i_faChars (sparse types), masks OUTFLOW and FREE_SURFACE, i_elFa, i_elFaEl, i_fIdElFaEl, i_vIdElFaEl *)
Record adj := { aFaChars : list N; aOut : N; aFree : N; aElFa : list (list nat); aElFaEl : list (list (option nat)); aFId : list (list nat); aVId : list (list (option nat)) }.

(** Neighbouring time integrated DOFs at face [fa]: data of an element of the same partition, or data which was projected to the face by
    the other partition.  Models AderDg.hpp:620-690; [ne]: None is numeric_limits::max(). *)
Definition neighData (fl : ltsFlags) (c : N) (firstTs : bool) (t0s t1s t2s : list (list T)) (ne : option nat) (rv : buffer) (fa : nat) (jn : list T) : res (list T * option (list T)) :=
  match rv with
  | Some b => lt <- rd (fAdLt fl) fa;; p <- rd b (if has c lt && negb firstTs then 1 else 0);; Ok (jn, Some p)
  | None =>
    eq <- rd (fAdEq fl) fa;; gt <- rd (fAdGt fl) fa;;
    match ne with
    | None => Er Eub
    | Some ne =>
      o <- (if has c eq then a <- rd t0s ne;; copyE cf nE a jn
            else if has c gt then a <- rd t1s ne;; copyE cf nE a jn
            else if firstTs then a <- rd t2s ne;; copyE cf nE a jn
            else a <- rd t0s ne;; b <- rd t2s ne;; diffE a b jn);;
      Ok (o, None)
    end
  end.

(** Contribution of the neighbour at one face.  Models AderDg.hpp:594-712; [recv]: None is the null pointer i_recvDofs. *)
Definition nFace := (list T * list T * list T * list T)%type.
Definition neighFace (K : kernels) (S : solver) (fl : ltsFlags) (M : adj) (c : N) (firstTs : bool) (t0s t1s t2s : list (list T)) (recv : option (list buffer)) (jn : list T)
    (el fa : nat) (s : nFace) : res nFace :=
  let '(qE, up, x0, x1) := s in
  fid <- rd2 (aElFa M) el fa;; ch <- rd (aFaChars M) fid;;
  if has ch (aOut M) then Ok s
  else
    let free := has ch (aFree M) in
    ne <- (if free then Ok (Some el) else rd2 (aElFaEl M) el fa);;
    rv <- match recv with None => Ok None | Some r => rd r (el * nFa + fa) end;;
    '(t, pre) <- neighData fl c firstTs t0s t1s t2s ne rv fa jn;;
    vId <- (if free then Ok None else rd2 (aVId M) el fa);;
    fId <- (if free then Ok 0 else rd2 (aFId M) el fa);;
    fE <- rd2 (mFsE1 S) el fa;; fA <- (if 0 <? nRm then rd2 (mFsA1 S) el fa else Ok []);;
    surfNeigh zero add mul isz cf (kSurf K) (kLN K) (kFT K) fa vId fId fE fA t pre qE up x0 x1.

(** One element.  Models AderDg.hpp:573-720. *)
Definition nstate := (list (list T) * list (list (list T)) * list T * list T)%type.
Definition neighEl (K : kernels) (S : solver) fl (M : adj) (chars : list N) firstTs t0s t1s t2s recv (J : junk) (el : nat) (s : nstate) : res nstate :=
  let '(dE, dA, x0, x1) := s in
  c <- rd chars el;; qE <- rd dE el;;
  up <- (if 0 <? nRm then zeroE zero cf nM (jA J) else Ok (jA J));;
  '(qE, up, x0, x1) <- for_ 0 nFa (neighFace K S fl M c firstTs t0s t1s t2s recv (jE J) el) (qE, up, x0, x1);;
  dE <- wr dE el qE;;
  if 0 <? nRm then qA <- rd dA el;; qA <- scatterUpdateA add mul cf (kRf K) up qA;; dA <- wr dA el qA;; Ok (dE, dA, x0, x1)
  else Ok (dE, dA, x0, x1).

(** Models AderDg.hpp:554-722 (neigh). *)
Definition neigh (K : kernels) (S : solver) fl (M : adj) chars firstTs t0s t1s t2s recv (J : junk) (first nEls : nat) (s : nstate) : res nstate :=
  for_ first (first + nEls) (neighEl K S fl M chars firstTs t0s t1s t2s recv J) s.

End El.
