(** C90: initial values of the DOFs and error norms. *)
From Coq Require Import List ZArith Reals Lra Lia Bool.
From Verif Require Import Util BasisSpec BasisInt BasisOrth BasisSpan Basis Props_Basis EdgePreM EdgePreP Qpts QptsSpec QptsP Props_Qpts InitP InitQ.
Import ListNotations.
Local Open Scope R_scope.

(** *** Specification *)
(** A setup: supported order, Gauss-Legendre rules of the external library, the entries of the mass matrix, one expression per simulation, elements larger than the tolerance. *)
Definition setup (gl : nat -> nat -> R * R) (tol : R) (el : refEl) (o : nat) (raw : list R) (first size nV : nat) (elVe : nat -> nat -> nat) (ve : nat -> nat -> R) (nQ nC : nat) (ex : list expr) : Prop :=
  (1 <= o)%nat /\ (o + 1 <= maxOrder el)%nat /\ (forall k, (1 <= k <= o + 1)%nat -> isGauss gl k) /\ 0 < tol < 1
  /\ (exists m, isMass el o m /\ length raw = (nMds el o * nMds el o)%nat /\ forall i j, (i < nMds el o)%nat -> (j < nMds el o)%nat -> nth (i * nMds el o + j) raw 0 = m i j)
  /\ length ex = nC /\ (forall x c q, In x ex -> length q = nQ -> length (x c q) = nQ)
  /\ forall e, (first <= e < first + size)%nat -> wellShaped tol el (elCrds el nV elVe ve e).
(** the vertices of element [e]; coordinates above the dimension vanish *)
Theorem C90_vertices el nV elVe ve e d i : (d < 3)%nat -> (i < nV)%nat -> vx (elCrds el nV elVe ve e) d i = if (d <? dim el)%nat then ve (elVe e i) d else 0.
Proof. apply vx_elCrds. Qed.
(** quantity [qt] an expression of simulation [cr] assigns at a physical point, all quantities being zero before *)
Definition given (el : refEl) (nQ : nat) (ex : list expr) (cr qt : nat) (x y z : R) : R := nth qt (nth cr ex (fun _ q => q) (firstn (dim el) [x; y; z]) (repeat 0 nQ)) 0.
(** the same at a point of the reference element *)
Definition givenAt (el : refEl) (nQ : nat) (ex : list expr) (v : list (list R)) (cr qt : nat) (x y z : R) : R := given el nQ ex cr qt (affMap el v x y z 0) (affMap el v x y z 1) (affMap el v x y z 2).
(** the function modes stand for *)
Definition sol (el : refEl) (o : nat) (u : nat -> R) (x y z : R) : R := rsum (nMds el o) (fun md => u md * phi el (modeAt el o md) x y z).
(** expressions which assign all quantities *)
Definition assigning (nQ : nat) (ex : list expr) : Prop := forall x c q q', In x ex -> length q = nQ -> length q' = nQ -> x c q = x c q'.

(** *** Initial values *)
(** For all elements, quantities and simulations the modes are set to numbers, nothing else is touched. The modes are the projection of the given function: the remainder is orthogonal, with respect to the
    quadrature of order+1 points per dimension, to all basis functions. Polynomials below the order are represented exactly. *)
Theorem C90_init gl tol el o raw first size nV elVe ve nQ nC ex d : setup gl tol el o raw first size nV elVe ve nQ nC ex ->
  exists b d' u qs, newBasis gl tol el o raw = Ok b /\ initDg gl tol nQ nC b first size nV ex elVe ve d = Ok d' /\ getQpts gl tol el (o + 1) (refVes el) = Ok qs
    /\ (forall e qt md cr, ~ (first <= e < first + size /\ qt < nQ /\ md < nMds el o /\ cr < nC)%nat -> d' e qt md cr = d e qt md cr)
    /\ forall e qt cr, (first <= e < first + size)%nat -> (qt < nQ)%nat -> (cr < nC)%nat ->
      (forall md, (md < nMds el o)%nat -> d' e qt md cr = Some (u e qt cr md))
      /\ (forall md, (md < nMds el o)%nat -> rule qs (fun x y z => phi el (modeAt el o md) x y z * (givenAt el nQ ex (elCrds el nV elVe ve e) cr qt x y z - sol el o (u e qt cr) x y z)) = 0)
      /\ (admits el (elCrds el nV elVe ve e) o (given el nQ ex cr qt) -> forall x y z, sol el o (u e qt cr) x y z = givenAt el nQ ex (elCrds el nV elVe ve e) cr qt x y z).
Proof.
  intros (Ho & Hm & HG & HT & (m & HM & HL & HR) & HE & HX & HW). destruct (dg_ok gl tol el o nQ nC first size nV ex elVe ve Ho HG HT HE HX HW d) as (d' & E & D).
  exists (theBasis gl el o), d', (fun e qt cr md => coef gl el o nQ nV ex elVe ve e qt md cr), (refPts gl el (o + 1)).
  split; [now apply (new_ok gl tol el o raw m)|]. split; [exact E|]. split; [apply ref_qpts; [lia|apply HG; lia|exact HT]|]. split.
  - intros e qt md cr H. rewrite D. destruct (Nat.leb_spec first e), (Nat.ltb_spec e (first + size)), (Nat.ltb_spec qt nQ), (Nat.ltb_spec md (nMds el o)), (Nat.ltb_spec cr nC); cbn [andb]; try reflexivity. exfalso. apply H. lia.
  - intros e qt cr He Hq Hc. split; [|split].
    + intros md Hd. rewrite D. destruct (Nat.leb_spec first e), (Nat.ltb_spec e (first + size)), (Nat.ltb_spec qt nQ), (Nat.ltb_spec md (nMds el o)), (Nat.ltb_spec cr nC); cbn [andb]; try reflexivity; lia.
    + intros md Hd. now apply (proj_orth gl el o Ho HG (onRef el (vs el nV elVe ve e) (valE el nQ ex cr qt))).
    + intros A. apply (proj_exact gl el o Ho HG). exact (admits_wp tol el _ o _ (HW e He) A).
Qed.

(** *** Error norms *)
(** For expressions which assign all quantities: the L1 norm is the quadrature of the difference, the square of the L2 norm the integral of its square if the given function is a polynomial below the order
    (the quadrature of it otherwise), and the maximum norm the largest difference at the points of the quadrature. *)
Theorem C90_error gl tol el o raw first size nV elVe ve nQ nC ex big d u : setup gl tol el o raw first size nV elVe ve nQ nC ex -> assigning nQ ex ->
  (forall e qt md cr, (first <= e < first + size)%nat -> (qt < nQ)%nat -> (md < nMds el o)%nat -> (cr < nC)%nat -> d e qt md cr = Some (u e qt cr md)) ->
  exists b st qs, newBasis gl tol el o raw = Ok b /\ err gl tol nQ nC big b first size nV ex elVe ve d = Ok st /\ getQpts gl tol el (o + 1) (refVes el) = Ok qs
    /\ forall qt cr, (qt < nQ)%nat -> (cr < nC)%nat ->
      let v := elCrds el nV elVe ve in
      let diff := fun e x y z => sol el o (u e qt cr) x y z - givenAt el nQ ex (v e) cr qt x y z in
      eL1 st qt cr = Some (rsum size (fun k => volJ el (v (first + k)%nat) * rule qs (fun x y z => Rabs (diff (first + k)%nat x y z))))
      /\ (exists I, eL2 st qt cr = Some (rsum size (fun k => volJ el (v (first + k)%nat) * I (first + k)%nat))
          /\ forall e, (first <= e < first + size)%nat -> I e = rule qs (fun x y z => diff e x y z * diff e x y z)
            /\ (admits el (v e) o (given el nQ ex cr qt) -> intEl el (fun x y z => diff e x y z * diff e x y z) (I e)))
      /\ exists M, eInf st qt cr = Some M /\ 0 <= M /\ (forall e x y z w, (first <= e < first + size)%nat -> In (x, y, z, w) qs -> Rabs (diff e x y z) <= M)
          /\ (M = 0 \/ exists e x y z w, (first <= e < first + size)%nat /\ In (x, y, z, w) qs /\ M = Rabs (diff e x y z)).
Proof.
  intros (Ho & Hm & HG & HT & (m & HM & HL & HR) & HE & HX & HW) HA HU.
  destruct (norms_sum gl tol el o nQ nC first size nV ex elVe ve Ho HG HT HE HX HW big d (fun e qt md cr => u e qt cr md) (fun _ q => length q = nQ) (fun cr c => nth cr ex (fun _ q => q) c (repeat 0 nQ))) as (st & E & H).
  - intros. apply repeat_length.
  - intros cr c q Hc Hl. assert (I : In (nth cr ex (fun _ q => q)) ex) by (apply nth_In; lia). split; [apply HA; [exact I|exact Hl|apply repeat_length]|apply HX; [exact I|apply repeat_length]].
  - intros cr q Hl. exact Hl.
  - exact HU.
  - exists (theBasis gl el o), st, (refPts gl el (o + 1)). split; [now apply (new_ok gl tol el o raw m)|]. split; [exact E|]. split; [apply ref_qpts; [lia|apply HG; lia|exact HT]|].
    intros qt cr Hq Hc v diff. destruct (H qt cr Hq Hc) as (H1 & H2 & H3). split; [exact H1|]. split; [|exact H3].
    exists (fun e => rule (refPts gl el (o + 1)) (fun x y z => diff e x y z * diff e x y z)). split; [exact H2|]. intros e He. split; [reflexivity|]. intros A.
    assert (W : wpoly el (okE el o) (diff e)).
    { apply (wp_ext el _ (fun x y z => sol el o (u e qt cr) x y z + (-1) * givenAt el nQ ex (v e) cr qt x y z)); [intros; unfold diff; ring|].
      apply wp_add; [apply (recon_wp el o (u e qt cr))|]. apply wp_scal. exact (admits_wp tol el _ o _ (HW e He) A). }
    apply ref_exact; [apply HG; lia|]. eapply wp_mul; [apply deg_ok; exact Ho|exact W|exact W].
Qed.

(** Initial values which are polynomials below the order have no error. *)
Theorem C90_zero gl tol el o raw first size nV elVe ve nQ nC ex big d : setup gl tol el o raw first size nV elVe ve nQ nC ex -> assigning nQ ex ->
  (forall e qt cr, (first <= e < first + size)%nat -> (qt < nQ)%nat -> (cr < nC)%nat -> admits el (elCrds el nV elVe ve e) o (given el nQ ex cr qt)) ->
  exists b d' st, newBasis gl tol el o raw = Ok b /\ initDg gl tol nQ nC b first size nV ex elVe ve d = Ok d' /\ err gl tol nQ nC big b first size nV ex elVe ve d' = Ok st
    /\ forall qt cr, (qt < nQ)%nat -> (cr < nC)%nat -> eL1 st qt cr = Some 0 /\ eL2 st qt cr = Some 0 /\ eInf st qt cr = Some 0.
Proof.
  intros S HA AD. destruct (C90_init _ _ _ _ _ _ _ _ _ _ _ _ _ d S) as (b & d' & u & qs & Eb & Ed & Eq & _ & H).
  destruct (C90_error _ _ _ _ _ _ _ _ _ _ _ _ _ big d' u S HA) as (b' & st & qs' & Eb' & Es & Eq' & HS); [intros e qt md cr He Hq Hd Hc; now apply (H e qt cr He Hq Hc)|].
  assert (b' = b) by congruence. assert (qs' = qs) by congruence. subst b' qs'. exists b, d', st. split; [exact Eb|]. split; [exact Ed|]. split; [exact Es|]. intros qt cr Hq Hc.
  assert (Z : forall e x y z, (first <= e < first + size)%nat -> sol el o (u e qt cr) x y z - givenAt el nQ ex (elCrds el nV elVe ve e) cr qt x y z = 0).
  { intros e x y z He. destruct (H e qt cr He Hq Hc) as (_ & _ & X). rewrite (X (AD e qt cr He Hq Hc)). ring. }
  destruct (HS qt cr Hq Hc) as (H1 & (I & H2 & HI) & M & H3 & M0 & _ & MA). rewrite H1, H2, H3. split; [|split].
  - f_equal. apply rsum_0. intros k Hk. rewrite (rule_ext _ _ (fun _ _ _ => 0)) by (intros; rewrite Z by lia; apply Rabs_R0). rewrite rule_lsum, (lsum_ext _ _ (fun _ => 0)) by (intros (((x & y) & z) & w) _; ring). rewrite lsum_0. ring.
  - f_equal. apply rsum_0. intros k Hk. destruct (HI (first + k)%nat ltac:(lia)) as (-> & _). rewrite (rule_ext _ _ (fun _ _ _ => 0)) by (intros; rewrite Z by lia; ring). rewrite rule_lsum, (lsum_ext _ _ (fun _ => 0)) by (intros (((x & y) & z) & w) _; ring). rewrite lsum_0. ring.
  - f_equal. destruct MA as [->|(e & x & y & z & w & He & _ & ->)]; [reflexivity|]. rewrite Z by exact He. apply Rabs_R0.
Qed.

(** Expressions may leave quantities out: those are initialized with zero, but the error norms compare them with the values of the evaluation before, at the first point with the largest floating point number.
    The maximum norm of the initial values then is that number. *)
Definition skips : expr := fun _ q => q.
Theorem C90_skipped_refuted gl tol el o raw size nV elVe ve big d : setup gl tol el o raw 0 size nV elVe ve 1 1 [skips] -> (0 < size)%nat -> 0 < big ->
  exists b d' st, newBasis gl tol el o raw = Ok b /\ initDg gl tol 1 1 b 0 size nV [skips] elVe ve d = Ok d' /\ err gl tol 1 1 big b 0 size nV [skips] elVe ve d' = Ok st
    /\ (forall e md, (e < size)%nat -> (md < nMds el o)%nat -> d' e 0%nat md 0%nat = Some 0) /\ eInf st 0%nat 0%nat = Some big.
Proof.
  intros (Ho & Hm & HG & HT & (m & HM & HL & HR) & HE & HX & HW) Hs Hb. destruct (dg_ok gl tol el o 1 1 0 size nV [skips] elVe ve Ho HG HT HE HX HW d) as (d' & E & D).
  assert (D0 : forall e qt md cr, (0 <= e < 0 + size)%nat -> (qt < 1)%nat -> (md < nMds el o)%nat -> (cr < 1)%nat -> d' e qt md cr = Some 0).
  { intros e qt md cr He Hq Hd Hc. rewrite D. destruct (Nat.ltb_spec e (0 + size)), (Nat.ltb_spec qt 1), (Nat.ltb_spec md (nMds el o)), (Nat.ltb_spec cr 1); try lia. cbn [andb Nat.leb]. f_equal. unfold coef, proj.
    assert (qt = 0)%nat by lia. assert (cr = 0)%nat by lia. subst qt cr. rewrite (rule_ext _ _ (fun _ _ _ => 0 * 0)) by (intros; unfold onRef, valE, skips; cbn; ring). rewrite rule_scal. unfold Rdiv. ring. }
  destruct (norms_sum gl tol el o 1 1 0 size nV [skips] elVe ve Ho HG HT HE HX HW big d' (fun _ _ _ _ => 0) (fun _ q => q = [big]) (fun _ _ => [big])) as (st & Es & H).
  - intros. reflexivity.
  - intros [|cr] c q Hc ->; [|lia]. split; reflexivity.
  - intros cr q ->. reflexivity.
  - exact D0.
  - exists (theBasis gl el o), d', st. split; [now apply (new_ok gl tol el o raw m)|]. split; [exact E|]. split; [exact Es|]. split; [intros e md He Hd; apply D0; lia|].
    destruct (H 0%nat 0%nat ltac:(lia) ltac:(lia)) as (_ & _ & M & EM & M0 & ML & MA). rewrite EM. f_equal.
    assert (V : forall e x y z, Rabs (recon el o (fun _ => 0) x y z - onRef el (vs el nV elVe ve e) (valF el (fun _ _ => [big]) 0 0) x y z) = big).
    { intros e x y z. unfold recon. rewrite rsum_0 by (intros; ring). unfold onRef, valF. cbn [nth]. rewrite Rminus_0_l, Rabs_Ropp. apply Rabs_pos_eq. lra. }
    destruct MA as [->|(e & x & y & z & w & _ & _ & ->)]; [|apply V]. destruct (refPts gl el (o + 1)) as [|(((x & y) & z) & w) l] eqn:Er.
    + exfalso. apply (f_equal (@length _)) in Er. rewrite refPts_len in Er. cbn in Er. unfold nQps in Er. pose proof (Nat.pow_nonzero (o + 1) (dim el) ltac:(lia)). destruct el; cbn in Er; lia.
    + specialize (ML 0%nat x y z w ltac:(lia) (or_introl eq_refl)). rewrite V in ML. lra.
Qed.

(** *** Non-vacuity *)
(** two skewed triangles, order one, two quantities, two simulations *)
Definition veEx (i d : nat) : R := nth d (nth i [[0; 0]; [2; 1]; [1; 3]; [4; 4]] []) 0.
Definition elVeEx (e i : nat) : nat := nth i (nth e [[0; 1; 2]; [1; 3; 2]]%nat []) 0%nat.
Definition exEx : list expr := [fun c q => [3; 5]; fun c q => [nth 0 c 0; -1]].
Lemma raw_ex el o : exists raw m, isMass el o m /\ length raw = (nMds el o * nMds el o)%nat /\ forall i j, (i < nMds el o)%nat -> (j < nMds el o)%nat -> nth (i * nMds el o + j) raw 0 = m i j.
Proof.
  destruct (mass_ex el o) as (m & M). set (N := nMds el o) in *. exists (map (fun k => m (k / N)%nat (k mod N)%nat) (seq 0 (N * N))), m. split; [exact M|]. split; [now rewrite map_length, seq_length|]. intros i j Hi Hj.
  assert (B : (i * N + j < N * N)%nat) by nia. rewrite (nth_indep _ _ (m (0 / N)%nat (0 mod N)%nat)) by (rewrite map_length, seq_length; exact B). rewrite (map_nth (fun k => m (k / N)%nat (k mod N)%nat) (seq 0 (N * N)) 0%nat), seq_nth by exact B. cbn [plus].
  rewrite Nat.add_comm, Nat.mod_add, Nat.div_add, Nat.mod_small, Nat.div_small by lia. reflexivity.
Qed.
Example setup_ex : exists raw, setup glEx (1 / 1000) Tria 1 raw 0 2 3 elVeEx veEx 2 2 exEx /\ assigning 2 exEx
  /\ admits Tria (elCrds Tria 3 elVeEx veEx 1) 1 (given Tria 2 exEx 0 1)
  /\ (setup glEx (1 / 1000) Tria 1 raw 0 2 3 elVeEx veEx 2 1 [fun _ _ => [3; 5]] /\ assigning 2 [fun _ _ => [3; 5]] /\ forall e qt cr, (qt < 2)%nat -> (cr < 1)%nat -> admits Tria (elCrds Tria 3 elVeEx veEx e) 1 (given Tria 2 [fun _ _ => [3; 5]] cr qt))
  /\ setup glEx (1 / 1000) Tria 1 raw 0 2 3 elVeEx veEx 1 1 [skips].
Proof.
  destruct (raw_ex Tria 1) as (raw & m & M). exists raw.
  assert (C : forall nQ nC ex, length ex = nC -> (forall x c q, In x ex -> length q = nQ -> length (x c q) = nQ) -> setup glEx (1 / 1000) Tria 1 raw 0 2 3 elVeEx veEx nQ nC ex).
  { intros nQ nC ex L X. split; [lia|]. split; [cbn; lia|]. split; [intros k Hk; assert (k = 1 \/ k = 2)%nat as [->| ->] by lia; [apply gauss1_ex|apply gauss2_ex]|]. split; [lra|]. split; [exists m; exact M|]. split; [exact L|]. split; [exact X|].
    intros [|[|e]] He; [..|lia]; (split; [intros [|[|[|[|i]]]]; reflexivity|]); unfold volJ, cross2, edg; cbn [ax]; rewrite !vx_elCrds by lia; cbn; unfold veEx, elVeEx; cbn; lra. }
  split; [|split; [|split; [|split]]].
  - apply C; [reflexivity|]. intros x c q [<-|[<-|[]]] _; reflexivity.
  - intros x c q q' [<-|[<-|[]]] _ _; reflexivity.
  - exists [(5, (0, 0, 0)%nat)]. split; [intros c i j k [[= <- <- <- <-]|[]]; unfold totalDeg; lia|]. intros. unfold given. cbn. ring.
  - split; [apply C; [reflexivity|]; intros x c q [<-|[]] _; reflexivity|]. split; [intros x c q q' [<-|[]] _ _; reflexivity|]. intros e qt [|cr] Hq Hc; [|lia]. exists [(nth qt [3; 5] 0, (0, 0, 0)%nat)]. split; [intros c i j k [[= <- <- <- <-]|[]]; unfold totalDeg; lia|]. intros. unfold given. cbn. ring.
  - apply C; [reflexivity|]. intros x c q [<-|[]] L. exact L.
Qed.

Print Assumptions C90_vertices.
Print Assumptions C90_init.
Print Assumptions C90_error.
Print Assumptions C90_zero.
Print Assumptions C90_skipped_refuted.
