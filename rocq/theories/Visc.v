(** Set-up of attenuation: relaxation frequencies, anelastic coefficients, elastic Lame parameters and source matrices (src/impl/seismic/setups/ViscoElasticity.{h,cpp},
    src/impl/seismic/solvers/{AderDg, AderDgInit}.hpp, src/impl/seismic/setup.inc).

    Scalars are real numbers; rounding and the conversions between float and double are not modelled.  A division by zero, after which the code goes on with infinities or
    NaNs, is [Er Eub]; divisions by frequencies, which are positive for positive central frequencies and ratios (checked in src/impl/seismic/io/Config.cpp 133-134), are plain.
    [solve r c a b] is Eigen's bdcSvd(...).solve(b) of the row-major matrix a with r rows and c columns. *)
From Coq Require Import List Arith Bool Reals.
From Verif Require Import Util FakeMats.
Import ListNotations.
Open Scope R_scope.

Definition quo (a b : R) : res R := if Req_EM_T b 0 then Er Eub else Ok (a / b).

(** ViscoElasticity.h 168-184; n > 0 *)
Definition frequencies (n : nat) (freqCen freqRat : R) : list R :=
  let f0 := 2 * PI * freqCen / sqrt freqRat in
  f0 :: map (fun fr => exp (ln f0 + INR fr * ln freqRat / INR (2 * (n - 1)))) (seq 1 (2 * n - 1 - 1)).

(** AderDg.hpp 246-264: frequencies of the kernels, the first n entries *)
Definition kernelFreqs (n : nat) (freqCen freqRat : R) : res (list R) :=
  rfs <- for_ 0 n (fun rm rfs => x <- rd rfs (rm * 2);; wr rfs rm x) (frequencies n freqCen freqRat);;
  Ok (firstn n rfs).

(** ViscoElasticity.cpp 30-67; [cK], [cM]: coefficients of kappa and mu. Result: lambda, mu *)
Definition elasticLame (n : nat) (freqRef : R) (freqs cK cM : list R) (lamPhase muPhase : R) : res (R * R) :=
  let '(t10, t11, t20, t21) :=
    fold_left (fun t me =>
      let '(t10, t11, t20, t21) := t in
      let freqRat := freqRef / nth (me * 2) freqs 0 in
      let sca := 1 / (1 + freqRat * freqRat) in
      (t10 - nth me cK 0 * sca, t11 - nth me cM 0 * sca, t20 + nth me cK 0 * freqRat * sca, t21 + nth me cM 0 * freqRat * sca))
      (seq 0 n) (1, 1, 0, 0) in
  let r0 := sqrt (t10 * t10 + t20 * t20) in
  let r1 := sqrt (t11 * t11 + t21 * t21) in
  muE <- quo (muPhase * (r1 + t11)) (2 * r1 * r1);;
  sc <- quo (r0 + t10) (2 * r0 * r0);;
  let kappa := (lamPhase + 2 * muPhase) * sc in
  Ok (kappa - 2 * muE, muE).

Section Fit.
Variable solve : nat -> nat -> list R -> list R -> list R.

(** ViscoElasticity.cpp 83-95: rows are frequencies, columns are mechanisms *)
Definition fitMat (n : nat) (qInv : R) (freqs : list R) : list R :=
  flat_map (fun fr => map (fun me =>
    let mf := nth (me * 2) freqs 0 in let f := nth fr freqs 0 in
    (mf * f + mf * mf * qInv) / (f * f + mf * mf)) (seq 0 n)) (seq 0 (2 * n - 1)).
(** ViscoElasticity.cpp 97-102 *)
Definition fitRhs (n : nat) (qInv : R) : list R := repeat qInv (2 * n - 1).

(** ViscoElasticity.cpp 69-128 *)
Definition anelasticCoeffPs (n : nat) (q : R) (freqs : list R) : res (list R) :=
  _ <- check (0 <? n)%nat;;
  qInv <- quo 1 q;;
  Ok (solve (2 * n - 1) n (fitMat n qInv freqs) (fitRhs n qInv)).

(** ViscoElasticity.cpp 130-176. Result: elastic lambda and mu, coefficients of lambda and mu. Without mechanisms, the array of frequencies has a negative size. *)
Definition anelasticCoeffLame (n : nat) (freqCen freqRat qp qs lamPhase muPhase : R) : res (R * R * list R * list R) :=
  if (n =? 0)%nat then Er Eub else
  let freqs := frequencies n freqCen freqRat in
  cP <- anelasticCoeffPs n qp freqs;;
  cS <- anelasticCoeffPs n qs freqs;;
  let freqRef := 2 * PI * freqCen in
  '(lamE, muE) <- elasticLame n freqRef freqs cP cS lamPhase muPhase;;
  sca <- quo (2 * muE) lamE;;
  Ok (lamE, muE, map (fun me => (1 + sca) * nth me cP 0 - sca * nth me cS 0) (seq 0 n), cS).

(** ViscoElasticity.h 205-262 (2D), 379-443 (3D). Result: elastic lambda and mu, one matrix per mechanism *)
Definition srcMats (d n : nat) (freqCen freqRat qp qs lamPhase muPhase : R) : res (R * R * list (list R)) :=
  '(lamE, muE, cL, cM) <- anelasticCoeffLame n freqCen freqRat qp qs lamPhase muPhase;;
  Ok (lamE, muE, map (fun me =>
    let nz0 := - lamE * nth me cL 0 - 2 * muE * nth me cM 0 in
    let nz1 := - (2) * muE * nth me cM 0 in
    let nz2 := - lamE * nth me cL 0 in
    srcDense 0 d nz0 nz1 nz2) (seq 0 n)).

(** background parameters of an element (src/impl/seismic/setup.inc 219-235, without the density, which is kept): lambda, mu, quality factors *)
Record bgPars := { bLam : R; bMu : R; bQp : R; bQs : R }.

(** AderDgInit.hpp 93-118: Lame parameters are overwritten; one list of matrices per element *)
Fixpoint initSrcA (d n : nat) (freqCen freqRat : R) (bg : list bgPars) : res (list bgPars * list (list (list R))) :=
  match bg with
  | [] => Ok ([], [])
  | b :: bg =>
    '(lamE, muE, s) <- srcMats d n freqCen freqRat (bQp b) (bQs b) (bLam b) (bMu b);;
    '(bg', ss) <- initSrcA d n freqCen freqRat bg;;
    Ok ({| bLam := lamE; bMu := muE; bQp := bQp b; bQs := bQs b |} :: bg', s :: ss)
  end.

(** setup.inc 248-263, AderDg.hpp 272-283, 299-309: parameters, which a partition sends to its neighbours (elements [sendEl]) and own parameters, with which its flux solvers
    are set up. *)
Definition exchange (d n : nat) (freqCen freqRat : R) (bg : list bgPars) (sendEl : list nat) : res (list bgPars * list bgPars) :=
  out <- fold_right (fun e o => o <- o;; x <- rd bg e;; Ok (x :: o)) (Ok []) sendEl;;
  '(bg', _) <- initSrcA d n freqCen freqRat bg;;
  Ok (out, bg').
End Fit.
