(** Specification of the element updates of the ADER-DG solver with local time stepping: terms of the update, contents of the time, send
    and receive buffers. *)
From Coq Require Import Ring.
From Verif Require Import Util MeshConn MatMul Props_Mat Sparse Lts Ader AderSpec AderV AderCk AderInt Props_Ader AderEl.
Local Open Scope nat_scope.

Section El.
Context {T : Type}.
Variables (A : alg T) (cf : conf).
Local Notation zero := (aZero A).
Local Notation one := (aOne A).
Local Notation add := (aAdd A).
Local Notation sub := (aSub A).
Local Notation mul := (aMul A).
Local Notation div := (aDiv A).
Local Notation opp := (aOpp A).
Local Notation ofN := (aOfN A).
Local Notation isz := (aIsz A).
Add Ring TR6 : (aRT A).
Local Notation nDi := (nDis (cEl cf)).
Local Notation nMd := (nModes (cEl cf) (cSp cf)).
Local Notation nMdFa := (nModesFa (cEl cf) (cSp cf)).
Local Notation nFa := (nElFas (cEl cf)).
Local Notation ck_ := (nModesCk (cEl cf) (cSp cf)).
Local Notation nE := (nQtsE (cEl cf)).
Local Notation nM := (nQtsM (cEl cf)).
Local Notation nCr := (cCrs cf).
Local Notation nRm := (cRms cf).
Local Notation state := (@state T).
Local Notation rep := (rep A cf).
Local Opaque nModes nModesCk nQtsE nQtsM nDis nModesFa nElFas.

(** constant data of the solver *)
Record setup := { uStT : list (list T); uSt : list (list T); uLN : list (list T); uFT : list (list T); uRf : list T; uS : @solver T; uN : nat }.
Definition stE U el := nth el (mStarE (uS U)) [].
Definition stA U el := nth el (mStarA (uS U)) [].
Definition srA U el := nth el (mSrcA (uS U)) [].

(** one flux solver per element and face *)
Definition fluxSolvers (n k : nat) (fs : list (list (list T))) : Prop := length fs = n /\ forall el, el < n -> sized nFa k (nth el fs []).

(** sizes of the matrices; no anelastic matrices without relaxation mechanisms *)
Definition good (U : setup) : Prop :=
  1 <= cTi cf /\ lowers A cf (predK A cf (uStT U)) /\ testsLow A cf (uSt U) /\ fluxMatrices cf (uLN U) (uFT U) /\
  (forall el, el < uN U -> matrices cf (uStT U) (stE U el) (stA U el) (srA U el) (uRf U) /\ matrices cf (uSt U) (stE U el) (stA U el) (srA U el) (uRf U)) /\ length (uRf U) = nRm /\
  length (mStarE (uS U)) = uN U /\ length (mSrcA (uS U)) = uN U /\ length (mStarA (uS U)) = (if 0 <? nRm then uN U else 0) /\
  fluxSolvers (uN U) (nE * nE) (mFsE0 (uS U)) /\ fluxSolvers (uN U) (nE * nE) (mFsE1 (uS U)) /\
  (if 0 <? nRm then fluxSolvers (uN U) (nM * nE) (mFsA0 (uS U)) /\ fluxSolvers (uN U) (nM * nE) (mFsA1 (uS U)) else mFsA0 (uS U) = [] /\ mFsA1 (uS U) = []).

(** d-th time derivative of the predictor, integral of the prediction over [0, dt] *)
Definition derivative (U : setup) (el d : nat) : state -> state := powOf A cf add (predK A cf (uStT U)) (stE U el) (stA U el) (srA U el) (uRf U) d.
Definition predInt (U : setup) (el : nat) (dt : T) (q : state) : state := comb A (cTi cf) (scal A dt) (fun d => derivative U el d q).
Definition predAt (U : setup) (el : nat) (t : T) (q : state) : state := comb A (cTi cf) (escal A t) (fun d => derivative U el d q).
(** volume and local surface terms of element [el] for its time integral [t] *)
Definition ownTerms (U : setup) (el : nat) (t : state) : state :=
  plus A (opOf A cf sub (volK A cf (uSt U)) (stE U el) (stA U el) (srA U el) (uRf U) t)
    (surfState A cf (fun fa => nth fa (nth el (mFsE0 (uS U)) []) []) (fun fa => nth fa (nth el (mFsA0 (uS U)) []) [])
      (fun fa => nth fa (uLN U) []) (fun fa => nth fa (uFT U) []) (uRf U) (fun _ => fst t) nFa).

Definition kernelsOf (U : setup) := mkKernels zero one cf opp (uStT U) (uSt U) (uLN U) (uFT U) (uRf U).

(** scratch memory and local arrays *)
Definition scratchOk (s : @scratch T) : Prop :=
  length (sTmp s) = nE * nMd * nCr /\ sized (cTi cf) (nE * nMd * nCr) (sDer s) /\ length (sFa0 s) = nE * nMdFa * nCr /\ length (sFa1 s) = nE * nMdFa * nCr.
Definition junkOk (J : @junk T) : Prop :=
  length (jA J) = nM * nMd * nCr /\ (length (jDer J) = nRm /\ forall rm, rm < nRm -> sized (cTi cf) (nM * nMd * nCr) (nth rm (jDer J) [])) /\
  sized nRm (nM * nMd * nCr) (jT J) /\ length (jE J) = nE * nMd * nCr.

(** relation of the time step of the element to the one of the element behind face [fa], as stored in the sparse type *)
Definition says (fl : ltsFlags) (c : N) (fa : nat) (r : comparison) : Prop :=
  fa < length (fAdEq fl) /\ fa < length (fAdLt fl) /\ fa < length (fAdGt fl) /\
  has c (nth fa (fAdEq fl) 0%N) = (match r with Eq => true | _ => false end) /\
  has c (nth fa (fAdLt fl) 0%N) = (match r with Lt => true | _ => false end) /\
  has c (nth fa (fAdGt fl) 0%N) = (match r with Gt => true | _ => false end).

(** size of a send or receive buffer of a face *)
Definition bufferOk (r : comparison) (b : list (list T)) : Prop := sized (match r with Gt => 2 | _ => 1 end) (nE * nMdFa * nCr) b.

(** what a send buffer holds: [F]: matrix of the projection, [t0], [t1], [t2]: data of the time buffers *)
Definition sent (F : list T) (r : comparison) (firstTs : bool) (t0 t1 t2 : nat -> nat -> nat -> T) (old new : list (list T)) : Prop :=
  bufferOk r new /\
  match r with
  | Eq => rep nE nMdFa (nth 0 new []) (fun z => faceInt A cf F (t0 z))
  | Lt => if firstTs then new = old else rep nE nMdFa (nth 0 new []) (fun z => faceInt A cf F (t1 z))
  | Gt => rep nE nMdFa (nth 0 new []) (fun z => faceInt A cf F (t2 z)) /\
          rep nE nMdFa (nth 1 new []) (fun z => faceInt A cf F (fun x y => sub (t0 z x y) (t2 z x y)))
  end.

(** sizes of the arrays of the local step *)
Definition lshape (U : setup) (s : @lstate T) : Prop :=
  length (lE s) = uN U /\ length (lA s) = uN U /\ length (l0 s) = uN U /\ length (l1 s) = uN U /\ length (l2 s) = uN U /\ length (lSend s) = uN U * nFa /\ scratchOk (lScr s).

(** position of a face's buffer *)
Definition at_ (el fa : nat) : nat := el * nFa + fa.

Definition elFlags (fl : ltsFlags) (c : N) (less greater : bool) : Prop := has c (fElLt fl) = less /\ has c (fElGt fl) = greater.

(** what an element needs for its local step: its DOFs hold [q]; the time buffers, which its flags [less] and [greater] ask for, exist,
    and the second one holds [g1]; the send buffers have the size for the relation [rel] of the time steps *)
Definition localPre fl (chars : list N) (vIds : list (list (option nat))) (el : nat) (s : @lstate T) (rel : nat -> comparison) (less greater : bool) (q : nat -> state) (g1 : nat -> nat -> nat -> T) : Prop :=
  holds A cf (nth el (lE s) []) (nth el (lA s) []) q /\ length (nth el (l0 s) []) = nE * nMd * nCr /\
  (if less then rep nE nMd (nth el (l1 s) []) g1 else True) /\ (if greater then length (nth el (l2 s) []) = nE * nMd * nCr else True) /\
  exists c, nth_error chars el = Some c /\ elFlags fl c less greater /\
  (forall fa b, fa < nFa -> nth_error (lSend s) (at_ el fa) = Some (Some b) ->
     says fl c fa (rel fa) /\ bufferOk (rel fa) b /\ (rel fa = Lt -> less = true) /\ (rel fa = Gt -> greater = true) /\
     exists v, nth_error (nth el vIds []) fa = Some (Some v) /\ v * nFa + fa < nFluxN (cEl cf)).

(** the result of the local step of an element: the DOFs got the volume and the local surface terms of the time integral of the
    prediction; the first time buffer is the integral over the time step; the second one is summed over the two time steps of a pair; the
    third one is the integral over the first half; the send buffers are set *)
Definition localPost (U : setup) (vIds : list (list (option nat))) (firstTs : bool) (dt hdt : T) (el : nat) (s s' : @lstate T) (rel : nat -> comparison) (less greater : bool) (q : nat -> state) (g1 : nat -> nat -> nat -> T) : Prop :=
  let t0 := fun z => fst (predInt U el dt (q z)) in
  let t1 := fun z x y => add (if firstTs then zero else g1 z x y) (t0 z x y) in
  let t2 := fun z => fst (predInt U el hdt (q z)) in
  holds A cf (nth el (lE s') []) (nth el (lA s') []) (fun z => plus A (q z) (ownTerms U el (predInt U el dt (q z)))) /\
  rep nE nMd (nth el (l0 s') []) t0 /\
  (if less then rep nE nMd (nth el (l1 s') []) t1 else nth el (l1 s') [] = nth el (l1 s) []) /\
  (if greater then rep nE nMd (nth el (l2 s') []) t2 else nth el (l2 s') [] = nth el (l2 s) []) /\
  (forall fa, fa < nFa -> match nth_error (lSend s) (at_ el fa) with
     | Some (Some b) => exists b' v, nth_error (lSend s') (at_ el fa) = Some (Some b') /\ nth_error (nth el vIds []) fa = Some (Some v) /\
         sent (nth (nFa + (v * nFa + fa)) (uLN U) []) (rel fa) firstTs t0 t1 t2 b b'
     | o => nth_error (lSend s') (at_ el fa) = o end).

(** nothing of element [el] has changed *)
Definition sameEl (s s' : @lstate T) (el : nat) : Prop :=
  nth el (lE s') [] = nth el (lE s) [] /\ nth el (lA s') [] = nth el (lA s) [] /\ nth el (l0 s') [] = nth el (l0 s) [] /\ nth el (l1 s') [] = nth el (l1 s) [] /\ nth el (l2 s') [] = nth el (l2 s) [] /\
  forall fa, fa < nFa -> nth_error (lSend s') (at_ el fa) = nth_error (lSend s) (at_ el fa).

(** the data [d] of the time buffers of element [ne], for the relation [r] of the element's time step to the one of [ne] *)
Definition bufferData (t0s t1s t2s : list (list T)) (firstTs : bool) (ne : nat) (r : comparison) (d : nat -> nat -> nat -> T) : Prop :=
  ne < length t0s /\ ne < length t1s /\ ne < length t2s /\
  match r with
  | Eq => rep nE nMd (nth ne t0s []) d
  | Gt => rep nE nMd (nth ne t1s []) d
  | Lt => if firstTs then rep nE nMd (nth ne t2s []) d
          else exists a b, rep nE nMd (nth ne t0s []) a /\ rep nE nMd (nth ne t2s []) b /\ forall z x y, d z x y = sub (a z x y) (b z x y)
  end.

Definition at2 {X} (l : list (list X)) (i j : nat) (x : X) : Prop := exists row, nth_error l i = Some row /\ nth_error row j = Some x.
(** the data [d] and the matrix [id] which face [fa] of element [el] uses; [out]: outflow boundary, nothing is used *)
Definition faceIn (U : setup) fl (M : adj) (c : N) firstTs t0s t1s t2s (recv : option (list (@buffer T))) (el fa : nat) (out : bool) (id : nat) (d : nat -> nat -> nat -> T) : Prop :=
  exists fid ch, at2 (aElFa M) el fa fid /\ nth_error (aFaChars M) fid = Some ch /\ has ch (aOut M) = out /\
  (out = false -> exists r rv, says fl c fa r /\ match recv with None => rv = None | Some l => nth_error l (at_ el fa) = Some rv end /\
    if has ch (aFree M) then r = Eq /\ rv = None /\ id = fa /\ bufferData t0s t1s t2s firstTs el Eq d
    else exists v fId, at2 (aVId M) el fa (Some v) /\ at2 (aFId M) el fa fId /\ v * nFa + fId < nFluxN (cEl cf) /\ id = nFa + (v * nFa + fId) /\
      match rv with
      | None => exists ne, at2 (aElFaEl M) el fa (Some ne) /\ bufferData t0s t1s t2s firstTs ne r d
      | Some b => bufferOk (CompOpp r) b /\ (exists x, at2 (aElFaEl M) el fa x) /\
          rep nE nMdFa (nth (match r with Lt => if firstTs then 0 else 1 | _ => 0 end) b []) (fun z => faceInt A cf (nth id (uLN U) []) (d z))
      end).

(** surface terms of one face, of all faces *)
Definition faceTerm (U : setup) (fs : list T) (fa id : nat) (d : nat -> nat -> T) : nat -> nat -> T := surf A cf fs (nth id (uLN U) []) (nth fa (uFT U) []) d.
Definition neighTerms (U : setup) (el : nat) (out : nat -> bool) (id : nat -> nat) (d : nat -> nat -> nat -> T) : state :=
  (fun x y => AderSpec.sum A nFa (fun fa => if out fa then zero else faceTerm U (nth fa (nth el (mFsE1 (uS U)) []) []) fa (id fa) (d fa) x y),
   fun rm x y => mul (nth rm (uRf U) zero) (AderSpec.sum A nFa (fun fa => if out fa then zero else faceTerm U (nth fa (nth el (mFsA1 (uS U)) []) []) fa (id fa) (d fa) x y))).

End El.
