(** Model of the f-wave solver (src/impl/swe/solvers/Fwave.hpp) and the finite volume scheme (src/impl/swe/solvers/FiniteVolume.hpp) for the shallow water equations.

    The scalar type (TL_T_REAL) and its operations are arbitrary. Arrays over the fused simulations are lists of length nCr (TL_N_CRS); a loop which assigns all entries of such an
    array is the table of the assigned values. All characteristics have the scalar type (the code converts some of them from double). *)
From Coq Require Import List Arith Bool.
From Verif Require Import Util.
Import ListNotations.

Section Fwave.
Context {T : Type}.
Variables (zero one half : T) (add sub mul div : T -> T -> T) (opp sqrt : T -> T) (ltb : T -> T -> bool).
(** default value 9.80665 of the gravity constant *)
Variable gDef : T.
Variable nCr : nat.

Definition tab (f : nat -> T) : list T := map f (seq 0 nCr).
Definition get (v : list T) (cr : nat) : T := nth cr v zero.

(** std::min, std::max *)
Definition fmin (a b : T) : T := if ltb b a then b else a.
Definition fmax (a b : T) : T := if ltb a b then b else a.

(** pair of arrays of the fused simulations, i.e. TL_T_REAL [2][TL_N_CRS] *)
Definition vec2 := (list T * list T)%type.

(** Fwave.hpp 58-94 *)
Definition evs (hL hR uL uR : list T) (g : T) : vec2 :=
  let charL := tab (fun cr => sub (get uL cr) (sqrt (mul g (get hL cr)))) in
  let charR := tab (fun cr => add (get uR cr) (sqrt (mul g (get hR cr)))) in
  let hRoe := tab (fun cr => mul half (add (get hL cr) (get hR cr))) in
  let uRoe := tab (fun cr => let sL := sqrt (get hL cr) in let sR := sqrt (get hR cr) in
                div (add (mul sL (get uL cr)) (mul sR (get uR cr))) (add sL sR)) in
  let roeL := tab (fun cr => sub (get uRoe cr) (sqrt (mul g (get hRoe cr)))) in
  let roeR := tab (fun cr => add (get uRoe cr) (sqrt (mul g (get hRoe cr)))) in
  (tab (fun cr => fmin (get charL cr) (get roeL cr)), tab (fun cr => fmax (get charR cr) (get roeR cr))).

(** Fwave.hpp 105-130 *)
Definition waveStrengths (fJump lam : vec2) : vec2 :=
  let adMbc := tab (fun cr => div one (sub (get (snd lam) cr) (get (fst lam) cr))) in
  let iR00 := tab (fun cr => mul (get adMbc cr) (get (snd lam) cr)) in
  let iR01 := tab (fun cr => opp (get adMbc cr)) in
  let iR10 := tab (fun cr => mul (opp (get adMbc cr)) (get (fst lam) cr)) in
  let iR11 := tab (fun cr => get adMbc cr) in
  (tab (fun cr => add (mul (get iR00 cr) (get (fst fJump) cr)) (mul (get iR01 cr) (get (snd fJump) cr))),
   tab (fun cr => add (mul (get iR10 cr) (get (fst fJump) cr)) (mul (get iR11 cr) (get (snd fJump) cr)))).

(** Fwave.hpp 142-175, one fused simulation: net-updates ((left 0, left 1), (right 0, right 1)) *)
Definition nus1 (lam0 lam1 beta0 beta1 : T) : (T * T) * (T * T) :=
  let '((l0, l1), (r0, r1)) := ((zero, zero), (zero, zero)) in
  let '((l0, l1), (r0, r1)) :=
    if ltb lam0 zero then ((add l0 beta0, add l1 (mul beta0 lam0)), (r0, r1)) else ((l0, l1), (add r0 beta0, add r1 (mul beta0 lam0))) in
  if ltb zero lam1 then ((l0, l1), (add r0 beta1, add r1 (mul beta1 lam1))) else ((add l0 beta1, add l1 (mul beta1 lam1)), (r0, r1)).

(** Fwave.hpp 142-175 *)
Definition nus (lam beta : vec2) : vec2 * vec2 :=
  let n cr := nus1 (get (fst lam) cr) (get (snd lam) cr) (get (fst beta) cr) (get (snd beta) cr) in
  ((tab (fun cr => fst (fst (n cr))), tab (fun cr => snd (fst (n cr)))), (tab (fun cr => fst (snd (n cr))), tab (fun cr => snd (snd (n cr))))).

(** Fwave.hpp 193-246; the call of evs does not pass the gravity constant *)
Definition fwave (hL hR huL huR : list T) (bL bR g : T) : vec2 * vec2 :=
  let uL := tab (fun cr => div (get huL cr) (get hL cr)) in
  let uR := tab (fun cr => div (get huR cr) (get hR cr)) in
  let lam := evs hL hR uL uR gDef in
  let fJump0 := tab (fun cr => sub (get huR cr) (get huL cr)) in
  let fJump1 := tab (fun cr =>
    let f := add (mul (get huR cr) (get uR cr)) (mul (mul (mul half g) (get hR cr)) (get hR cr)) in
    let f := sub f (add (mul (get huL cr) (get uL cr)) (mul (mul (mul half g) (get hL cr)) (get hL cr))) in
    add f (mul (mul (mul half g) (add (get hR cr) (get hL cr))) (sub bR bL))) in
  let beta := waveStrengths (fJump0, fJump1) lam in
  nus lam beta.

(** face characteristics: type OUTFLOW, type REFLECTING, outNormal, area *)
Record face := { fOut : bool; fRefl : bool; fN : list T; fArea : T }.

Variable nDi : nat.

(** FiniteVolume.hpp 120-139: quantities of an element in the normal direction *)
Definition qtsSide (n : list T) (dofs : list (list (list T))) (bath : list T) (el : nat) : res (vec2 * T) :=
  b <- rd bath el;;
  row <- rd dofs el;;
  h <- rd row 0;;
  hu <- for_ 0 nDi (fun di hu => x <- rd n di;; q <- rd row (1 + di);; Ok (tab (fun cr => add (get hu cr) (mul x (get q cr))))) (tab (fun _ => zero));;
  Ok ((tab (fun cr => get h cr), hu), b).

(** FiniteVolume.hpp 108-160: ((left, right) height and normal momentum, (left, right) bathymetry) *)
Definition qtsLr (f : face) (els : nat * nat) (dofs : list (list (list T))) (bath : list T) : res ((vec2 * vec2) * (T * T)) :=
  '(qL, bL) <- qtsSide (fN f) dofs bath (fst els);;
  '(qR, bR) <- (if negb (fOut f) && negb (fRefl f) then qtsSide (fN f) dofs bath (snd els) else Ok (qL, bL));;
  if fOut f then Ok ((qL, qL), (bL, bL))
  else if fRefl f then Ok ((qL, (tab (fun cr => get (fst qL) cr), tab (fun cr => opp (get (snd qL) cr)))), (bL, bL))
  else Ok ((qL, qR), (bL, bR)).

(** no net-updates *)
Definition zero2 : vec2 := (tab (fun _ => zero), tab (fun _ => zero)).

(** state of the mirrored flow *)
Definition mirror (q : vec2) : vec2 := (tab (fun cr => get (fst q) cr), tab (fun cr => opp (get (snd q) cr))).

(** FiniteVolume.hpp 237-311: net-updates of a single face *)
Definition nusFace (f : face) (els : nat * nat) (dofs : list (list (list T))) (bath : list T) : res (vec2 * vec2) :=
  '((qL, qR), (bL, bR)) <- qtsLr f els dofs bath;;
  if negb (ltb bL zero) && negb (ltb bR zero) then Ok (zero2, zero2) else
  let '((sL, sR), (bsL, bsR)) :=
    if ltb bL zero && ltb bR zero then ((qL, qR), (bL, bR))
    else if ltb bR zero then ((mirror qR, qR), (bR, bR))
    else ((qL, mirror qL), (bL, bL)) in
  let '(nL, nR) := fwave (fst sL) (fst sR) (snd sL) (snd sR) bsL bsR gDef in
  Ok (if negb (ltb bL zero) then zero2 else nL, if negb (ltb bR zero) then zero2 else nR).

(** FiniteVolume.hpp 226-314 *)
Definition nusN (first size : nat) (faEl : list (nat * nat)) (charsFa : list face) (dofs : list (list (list T))) (bath : list T) (out : list (vec2 * vec2)) : res (list (vec2 * vec2)) :=
  for_ first (first + size) (fun fa out =>
    els <- rd faEl fa;; f <- rd charsFa fa;;
    n <- nusFace f els dofs bath;;
    wr out fa n) out.

Variable nFas : nat.

(** FiniteVolume.hpp 352-378: one adjacent face of an element *)
Definition updateAd (sca : T) (el : nat) (faEl : list (nat * nat)) (faces : list nat) (charsFa : list face) (nu : list (vec2 * vec2)) (ad : nat) (row : list (list T)) : res (list (list T)) :=
  fa <- rd faces ad;;
  f <- rd charsFa fa;;
  let scaFa := mul sca (fArea f) in
  els <- rd faEl fa;;
  n <- rd nu fa;;
  let sd := if fst els =? el then fst n else snd n in
  h <- rd row 0;;
  row <- wr row 0 (tab (fun cr => sub (get h cr) (mul scaFa (get (fst sd) cr))));;
  for_ 0 nDi (fun di row =>
    x <- rd (fN f) di;;
    let scaN := mul scaFa x in
    q <- rd row (di + 1);;
    wr row (di + 1) (tab (fun cr => sub (get q cr) (mul scaN (get (snd sd) cr))))) row.

(** FiniteVolume.hpp 334-380 *)
Definition update (first size : nat) (dT : T) (faEl : list (nat * nat)) (elFa : list (list nat)) (charsFa : list face) (vol : list T) (nu : list (vec2 * vec2)) (dofs : list (list (list T))) : res (list (list (list T))) :=
  for_ first (first + size) (fun el dofs =>
    v <- rd vol el;;
    let sca := mul dT (div one v) in
    faces <- rd elFa el;;
    row <- rd dofs el;;
    row <- for_ 0 nFas (updateAd sca el faEl faces charsFa nu) row;;
    wr dofs el row) dofs.
End Fwave.
