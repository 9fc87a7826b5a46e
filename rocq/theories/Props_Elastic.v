(** C66 - C70: set-up of the seismic solver (star matrices, transformations, flux solvers), stated with the notions of ElSpec. The theorems over the real
    numbers use the axioms of the standard library's real numbers. *)
From Coq Require Import List Arith Bool Lia Reals Lra Field.
From Verif Require Import Util MatSparse Props_MatSparse ElGen Elastic ElSpec ElWave ElFlux ElTrafo ElMid ElMid2 ElAne ElFluid ElStar ElCsr ElFace.
Import ListNotations.
Open Scope R_scope.

(** ** C66: star matrices *)

(** jac e k: derivative of the reference coordinate e by the physical coordinate k; the code passes the inverse of the element's Jacobian. J is the Jacobian.
    G k: the state's derivative in the physical direction k; the derivative in reference direction e is sum_k J e k G k. *)
Definition inverseOf (d : nat) (jacInv : list (list R)) (J : nat -> nat -> R) : Prop :=
  forall k k', (k < d)%nat -> (k' < d)%nat -> sum d (fun e => nth e (nth k jacInv []) 0 * J e k') = delta k k'.

Theorem C66_star2 m jacInv J G : rho m <> 0 -> inverseOf 2 jacInv J -> (forall k, (k < 2)%nat -> length (G k) = 5%nat) ->
  lincomb 5 2 (fun _ => 1) (fun e => mv 5 5 (nth e (starE2R (rho m) (lam m) (mu m) jacInv) []) (lincomb 5 2 (J e) G)) =
  lincomb 5 2 (fun _ => 1) (fun k => flux 2 m (unitv k) (G k)).
Proof. apply star2. Qed.
Theorem C66_star3 m jacInv J G : rho m <> 0 -> inverseOf 3 jacInv J -> (forall k, (k < 3)%nat -> length (G k) = 9%nat) ->
  lincomb 9 3 (fun _ => 1) (fun e => mv 9 9 (nth e (starE3R (rho m) (lam m) (mu m) jacInv) []) (lincomb 9 3 (J e) G)) =
  lincomb 9 3 (fun _ => 1) (fun k => flux 3 m (unitv k) (G k)).
Proof. apply star3. Qed.
(** the anelastic matrices are applied to the velocities and yield the flux of the strain *)
Theorem C66_anelastic2 jacInv J G : inverseOf 2 jacInv J -> (forall k, (k < 2)%nat -> length (G k) = 5%nat) ->
  lincomb 3 2 (fun _ => 1) (fun e => mv 3 2 (nth e (starA2R jacInv) []) (skipn 3 (lincomb 5 2 (J e) G))) =
  lincomb 3 2 (fun _ => 1) (fun k => strainFlux 2 (unitv k) (vel 2 (G k))).
Proof. apply starAn2. Qed.
Theorem C66_anelastic3 jacInv J G : inverseOf 3 jacInv J -> (forall k, (k < 3)%nat -> length (G k) = 9%nat) ->
  lincomb 6 3 (fun _ => 1) (fun e => mv 6 3 (nth e (starA3R jacInv) []) (skipn 6 (lincomb 9 3 (J e) G))) =
  lincomb 6 3 (fun _ => 1) (fun k => strainFlux 3 (unitv k) (vel 3 (G k))).
Proof. apply starAn3. Qed.
Print Assumptions C66_star2.
Print Assumptions C66_star3.
Print Assumptions C66_anelastic2.
Print Assumptions C66_anelastic3.

(** a skewed element *)
Example C66_star_ex : inverseOf 2 [[1; - 1 / 2]; [0; 1 / 2]] (fun e k => nth k (nth e [[1; 1]; [0; 2]] []) 0).
Proof. intros [|[|k]] [|[|k']] H H'; try lia; cbv [sum delta seq fold_left nth Nat.eqb]; lra. Qed.
Example C66_star_ex3 : inverseOf 3 [[1; - 1 / 2; 0]; [0; 1 / 2; 0]; [0; 0; 4]] (fun e k => nth k (nth e [[1; 1; 0]; [0; 2; 0]; [0; 0; 1 / 4]] []) 0).
Proof. intros [|[|[|k]]] [|[|[|k']]] H H'; try lia; cbv [sum delta seq fold_left nth Nat.eqb]; lra. Qed.

(** the compressed values of the set-up and the pattern with which the kernels are generated (from ones and 1/2; exact arithmetic) are the dense matrices, for
    scalars of any type *)
Theorem C66_sparse {T : Type} (zero one : T) add sub mul div opp rho lam mu jacInv :
  (exists s, starCsrEq 2 = Ok s /\ forall e, (e < 2)%nat ->
     represents zero 5 5 0 (nth e (starE2sp zero one add sub mul div opp rho lam mu jacInv) []) s (nth e (starE2 zero one add sub mul div opp rho lam mu jacInv) [])) /\
  (exists s, starCsrEq 3 = Ok s /\ forall e, (e < 3)%nat ->
     represents zero 9 9 0 (nth e (starE3sp zero one add sub mul div opp rho lam mu jacInv) []) s (nth e (starE3 zero one add sub mul div opp rho lam mu jacInv) [])).
Proof.
  split.
  - destruct csrE2 as (v & E). eexists. split; [exact E|]. intros e He. now apply sparse2.
  - destruct csrE3 as (v & E). eexists. split; [exact E|]. intros e He. now apply sparse3.
Qed.
(** anelastic: the columns are the positions of the velocities in a state *)
Theorem C66_sparse_anelastic {T : Type} (zero one : T) add mul div opp jacInv :
  (exists s, starCsrAq 2 = Ok s /\ forall e, (e < 2)%nat ->
     represents zero 3 2 3 (nth e (starA2sp zero one add mul div opp jacInv) []) s (nth e (starA2 zero one add mul div opp jacInv) [])) /\
  (exists s, starCsrAq 3 = Ok s /\ forall e, (e < 3)%nat ->
     represents zero 6 3 6 (nth e (starA3sp zero one add mul div opp jacInv) []) s (nth e (starA3 zero one add mul div opp jacInv) [])).
Proof.
  split.
  - destruct csrA2 as (v & E). eexists. split; [exact E|]. intros e He. now apply sparseA2.
  - destruct csrA3 as (v & E). eexists. split; [exact E|]. intros e He. now apply sparseA3.
Qed.
Print Assumptions C66_sparse.
Print Assumptions C66_sparse_anelastic.

(** ** C67: transformations between the coordinates of a face and physical coordinates *)

Theorem C67_frame3 n s t q : orthonormal n s t -> length q = 9%nat ->
  let q' := mv 9 9 (tr3 n s t) q in
  (forall i j, (i < 3)%nat -> (j < 3)%nat -> sig 3 q' i j = sum 3 (fun k => sum 3 (fun l => frame3 n s t i k * frame3 n s t j l * sig 3 q k l))) /\
  (forall i, (i < 3)%nat -> vel 3 q' i = sum 3 (fun k => frame3 n s t i k * vel 3 q k)) /\
  mv 9 9 (tri3 n s t) q' = q /\ mv 9 9 (tr3 n s t) (mv 9 9 (tri3 n s t) q) = q.
Proof.
  intros O H. destruct (trafo3_rotates n s t q H) as [A B]. split; [exact A|]. split; [exact B|]. destruct n as [[nx ny] nz], s as [[sx sy] sz], t as [[tx ty] tz].
  destruct (ortho_det _ _ _ _ _ _ _ _ _ O) as [_ D]. destruct (trafo3_inverse nx ny nz sx sy sz tx ty tz q D H) as [X Y]. split; assumption.
Qed.
(** the inverse is right for skewed frames, too *)
Theorem C67_skewed3 nx ny nz sx sy sz tx ty tz q : det9 nx ny nz sx sy sz tx ty tz <> 0 -> length q = 9%nat ->
  mv 9 9 (trafoInv3R nx ny nz sx sy sz tx ty tz) (mv 9 9 (trafo3R nx ny nz sx sy sz tx ty tz) q) = q /\
  mv 9 9 (trafo3R nx ny nz sx sy sz tx ty tz) (mv 9 9 (trafoInv3R nx ny nz sx sy sz tx ty tz) q) = q.
Proof. intros D H. destruct (trafo3_inverse nx ny nz sx sy sz tx ty tz q D H). split; assumption. Qed.
Theorem C67_frame2 nx ny q : unit2 nx ny -> length q = 5%nat ->
  let q' := mv 5 5 (tr2 nx ny) q in
  (forall i j, (i < 2)%nat -> (j < 2)%nat -> sig 2 q' i j = sum 2 (fun k => sum 2 (fun l => frame2 nx ny i k * frame2 nx ny j l * sig 2 q k l))) /\
  (forall i, (i < 2)%nat -> vel 2 q' i = sum 2 (fun k => frame2 nx ny i k * vel 2 q k)) /\
  mv 5 5 (tri2 nx ny) q' = q /\ mv 5 5 (tr2 nx ny) (mv 5 5 (tri2 nx ny) q) = q.
Proof.
  intros O H. destruct (trafo2_rotates nx ny q O H) as [A B]. split; [exact A|]. split; [exact B|]. destruct (trafo2_inverse nx ny q O H). split; assumption.
Qed.
Print Assumptions C67_frame3.
Print Assumptions C67_skewed3.
Print Assumptions C67_frame2.

(** a rotated frame *)
Definition exN : R * R * R := (3 / 5, 4 / 5, 0).
Definition exS : R * R * R := (0, 0, 1).
Definition exT : R * R * R := (4 / 5, - 3 / 5, 0).
Example C67_ex : orthonormal exN exS exT /\ unit2 (3 / 5) (4 / 5).
Proof. cbv [orthonormal exN exS exT unit2 fst snd]. lra. Qed.

(** ** C68: the flux solvers compute the exact solution of the Riemann problem *)

(** the Riemann problem of two solids has exactly one solution *)
Theorem C68_wellposed d l r n qL qR : dim d -> dot d n n = 1 -> solid l -> solid r -> length qL = nQt d -> length qR = nQt d ->
  exists sL sR, riemann d l r n qL qR sL sR /\ forall sL' sR', riemann d l r n qL qR sL' sR' -> sL' = sL /\ sR' = sR.
Proof.
  intros D U L R HL HR. destruct (riemann_exists d l r n qL qR D U L R HL HR) as (sL & sR & H). exists sL, sR. split; [assumption|].
  intros sL' sR' H'. exact (riemann_unique d l r n qL qR sL' sR' sL sR D U L R HL HR H' H).
Qed.
Theorem C68_wellposed_surface d m n q : dim d -> dot d n n = 1 -> solid m -> length q = nQt d ->
  exists s, freeState d m n q s /\ forall s', freeState d m n q s' -> s' = s.
Proof.
  intros D U M H. destruct (free_exists d m n q D U M H) as (s & F). exists s. split; [assumption|]. intros s' F'.
  apply (entering_unique d m n q); try assumption; try apply F; try apply F'. intros i Hi.
  rewrite (free_star d m n q s' D U M H F' i Hi). symmetry. exact (free_star d m n q s D U M H F i Hi).
Qed.

(** [e]: solvers of the left element, [e']: of the right element *)
Theorem C68_interface3 l r n s t : solid l -> solid r -> orthonormal n s t -> exists e a e' a', faceFs3R l r n s t = Ok ((e, a), (e', a')) /\
  forall qL qR sL sR, length qL = 9%nat -> length qR = 9%nat -> riemann 3 l r (co3 n) qL qR sL sR ->
    appFs 9 9 e qL qR = flux 3 l (co3 n) sL /\ appFs 9 9 e' qR qL = flux 3 r (neg (co3 n)) sR.
Proof.
  intros L R O. destruct (face3 l r n s t L R O) as (e & a & e' & a' & E & P). exists e, a, e', a'. split; [assumption|]. intros. apply P; assumption.
Qed.
Theorem C68_interface2 l r nx ny : solid l -> solid r -> unit2 nx ny -> exists e a e' a', faceFs2R l r nx ny = Ok ((e, a), (e', a')) /\
  forall qL qR sL sR, length qL = 5%nat -> length qR = 5%nat -> riemann 2 l r (co2 nx ny) qL qR sL sR ->
    appFs 5 5 e qL qR = flux 2 l (co2 nx ny) sL /\ appFs 5 5 e' qR qL = flux 2 r (neg (co2 nx ny)) sR.
Proof.
  intros L R O. destruct (face2 l r nx ny L R O) as (e & a & e' & a' & E & P). exists e, a, e', a'. split; [assumption|]. intros. apply P; assumption.
Qed.
(** free surfaces: both solvers are applied to the element's own state *)
Theorem C68_surface3 l n s t : solid l -> orthonormal n s t -> exists e a, setUpFs3R l l n s t true = Ok (e, a) /\
  forall q f, length q = 9%nat -> freeState 3 l (co3 n) q f -> appFs 9 9 e q q = flux 3 l (co3 n) f.
Proof. intros L O. destruct (free3 l n s t L O) as (e & a & E & P). exists e, a. split; [assumption|]. intros. apply P; assumption. Qed.
Theorem C68_surface2 l nx ny : solid l -> unit2 nx ny -> exists e a, setUpFs2R l l nx ny true = Ok (e, a) /\
  forall q f, length q = 5%nat -> freeState 2 l (co2 nx ny) q f -> appFs 5 5 e q q = flux 2 l (co2 nx ny) f.
Proof. intros L O. destruct (free2 l nx ny L O) as (e & a & E & P). exists e, a. split; [assumption|]. intros. apply P; assumption. Qed.
(** fluids in two dimensions; the velocity along the face may jump, the flux does not depend on it *)
Theorem C68_fluids2 l r nx ny : fluid l -> fluid r -> unit2 nx ny ->
  (forall qL qR, length qL = 5%nat -> length qR = 5%nat -> hydrostatic 2 qL -> hydrostatic 2 qR -> exists sL sR, riemannF 2 l r (co2 nx ny) qL qR sL sR) /\
  exists e a e' a', faceFs2R l r nx ny = Ok ((e, a), (e', a')) /\
  forall qL qR sL sR, length qL = 5%nat -> length qR = 5%nat -> hydrostatic 2 qL -> hydrostatic 2 qR -> riemannF 2 l r (co2 nx ny) qL qR sL sR ->
    appFs 5 5 e qL qR = flux 2 l (co2 nx ny) sL /\ appFs 5 5 e' qR qL = flux 2 r (neg (co2 nx ny)) sR.
Proof. intros L R O. split; [|now apply face2F]. intros. apply riemannF_exists; auto. now apply unit2_dot. Qed.
Theorem C68_fluid_surface2 l nx ny : fluid l -> unit2 nx ny -> exists e a, setUpFs2R l l nx ny true = Ok (e, a) /\
  forall q f, length q = 5%nat -> hydrostatic 2 q -> freeState 2 l (co2 nx ny) q f -> appFs 5 5 e q q = flux 2 l (co2 nx ny) f.
Proof. apply free2F. Qed.
(** a fluid next to a solid is rejected *)
Theorem C68_mixed2 l r nx ny : (fluid l /\ solid r) \/ (solid l /\ fluid r) -> faceFs2R l r nx ny = Er Echeck.
Proof. intros H. unfold faceFs2R, faceFs2. pose proof (setUp2X l r nx ny false H) as E. unfold setUpFs2R in E. now rewrite E. Qed.
Print Assumptions C68_wellposed.
Print Assumptions C68_wellposed_surface.
Print Assumptions C68_interface3.
Print Assumptions C68_interface2.
Print Assumptions C68_surface3.
Print Assumptions C68_surface2.
Print Assumptions C68_fluids2.
Print Assumptions C68_fluid_surface2.
Print Assumptions C68_mixed2.

(** two solids, a fluid, states *)
Definition exL : material := {| rho := 2; lam := 1; mu := 3 |}.
Definition exR : material := {| rho := 1; lam := 2; mu := 1 |}.
Definition exF : material := {| rho := 1; lam := 2; mu := 0 |}.
Definition exQL : list R := [1; 2; 3; 4; 5; 6; 7; 8; 9].
Definition exQR : list R := [9; 7; 5; 3; 1; 0; - 1; 2; 4].
Example C68_ex : solid exL /\ solid exR /\ fluid exF /\ (exists sL sR, riemann 3 exL exR (co3 exN) exQL exQR sL sR) /\ (exists s, freeState 3 exL (co3 exN) exQL s) /\
  (exists sL sR, riemann 2 exL exR (co2 (3 / 5) (4 / 5)) (firstn 5 exQL) (firstn 5 exQR) sL sR) /\ (exists s, freeState 2 exL (co2 (3 / 5) (4 / 5)) (firstn 5 exQL) s) /\
  hydrostatic 2 [4; 4; 0; 1; 2].
Proof.
  assert (L : solid exL) by (cbv [solid exL rho lam mu]; lra). assert (R : solid exR) by (cbv [solid exR rho lam mu]; lra). destruct C67_ex as [O U].
  pose proof (ortho_unit3 _ _ _ O) as O'. pose proof (unit2_dot _ _ U) as U'.
  repeat split; try (cbv [exL exR exF rho lam mu]; lra).
  - now apply riemann_exists. - now apply free_exists. - now apply riemann_exists. - now apply free_exists.
  - intros [|[|i]] [|[|j]] Hi Hj; try lia; cbv; lra.
Qed.

(** ** C69: conservation and energy *)

(** a face conserves momentum and its fluxes do not produce energy, whatever the states of the elements *)
Theorem C69_interface3 l r n s t : solid l -> solid r -> orthonormal n s t -> exists e a e' a', faceFs3R l r n s t = Ok ((e, a), (e', a')) /\
  forall qL qR, length qL = 9%nat -> length qR = 9%nat -> let fL := appFs 9 9 e qL qR in let fR := appFs 9 9 e' qR qL in
    (forall i, (i < 3)%nat -> rho l * vel 3 fL i + rho r * vel 3 fR i = 0) /\ 0 <= loss 3 l (co3 n) qL fL + loss 3 r (neg (co3 n)) qR fR.
Proof.
  intros L R O. destruct (face3 l r n s t L R O) as (e & a & e' & a' & E & P). exists e, a, e', a'. split; [assumption|]. intros qL qR HL HR.
  pose proof (ortho_unit3 _ _ _ O) as U. destruct (riemann_exists 3 l r (co3 n) qL qR dim3 U L R HL HR) as (sL & sR & Rm). destruct (P qL qR sL sR HL HR Rm) as [[-> ->] _].
  split; [|now apply riemann_loss]. intros i Hi. rewrite !vel_flux, traction_neg by auto. destruct Rm as (_ & _ & _ & _ & T & _). rewrite (T i Hi).
  destruct L as [L _], R as [R _]. field. lra.
Qed.
Theorem C69_interface2 l r nx ny : solid l -> solid r -> unit2 nx ny -> exists e a e' a', faceFs2R l r nx ny = Ok ((e, a), (e', a')) /\
  forall qL qR, length qL = 5%nat -> length qR = 5%nat -> let fL := appFs 5 5 e qL qR in let fR := appFs 5 5 e' qR qL in
    (forall i, (i < 2)%nat -> rho l * vel 2 fL i + rho r * vel 2 fR i = 0) /\ 0 <= loss 2 l (co2 nx ny) qL fL + loss 2 r (neg (co2 nx ny)) qR fR.
Proof.
  intros L R O. destruct (face2 l r nx ny L R O) as (e & a & e' & a' & E & P). exists e, a, e', a'. split; [assumption|]. intros qL qR HL HR.
  pose proof (unit2_dot _ _ O) as U. destruct (riemann_exists 2 l r (co2 nx ny) qL qR dim2 U L R HL HR) as (sL & sR & Rm). destruct (P qL qR sL sR HL HR Rm) as [[-> ->] _].
  split; [|now apply riemann_loss]. intros i Hi. rewrite !vel_flux, traction_neg by auto. destruct Rm as (_ & _ & _ & _ & T & _). rewrite (T i Hi).
  destruct L as [L _], R as [R _]. field. lra.
Qed.
(** free surfaces and outflow boundaries (no contribution from outside) do not produce energy; free surfaces exert no force *)
Theorem C69_boundary3 l n s t : solid l -> orthonormal n s t ->
  (exists e a, setUpFs3R l l n s t true = Ok (e, a) /\
     forall q, length q = 9%nat -> (forall i, (i < 3)%nat -> vel 3 (appFs 9 9 e q q) i = 0) /\ 0 <= loss 3 l (co3 n) q (appFs 9 9 e q q)) /\
  (exists e a, setUpFs3R l l n s t false = Ok (e, a) /\ forall q, length q = 9%nat -> 0 <= loss 3 l (co3 n) q (mv 9 9 (fst e) q)).
Proof.
  intros L O. pose proof (ortho_unit3 _ _ _ O) as U. split.
  - destruct (free3 l n s t L O) as (e & a & E & P). exists e, a. split; [assumption|]. intros q H. destruct (free_exists 3 l (co3 n) q dim3 U L H) as (f & F).
    destruct (P q f H F) as [-> _]. split; [|now apply free_loss]. intros i Hi. rewrite vel_flux by auto. destruct F as (_ & _ & F). rewrite F by assumption. destruct L as [L _]. field. lra.
  - destruct (face3 l l n s t L L O) as (e & a & e' & a' & E & P). unfold faceFs3R, faceFs3 in E. fold (setUpFs3R l l n s t false) in E. apply bind_ok in E. destruct E as (x & E & E2).
    apply bind_ok in E2. destruct E2 as (y & _ & E2). injection E2 as -> ->. exists e, a. split; [assumption|]. intros q H.
    destruct (riemann_exists 3 l l (co3 n) q (zeros 9) dim3 U L L H eq_refl) as (sL & sR & Rm). destruct (P q (zeros 9) sL sR H eq_refl Rm) as [[F _] _].
    pose proof (riemann_loss 3 l l (co3 n) q (zeros 9) sL sR dim3 U L L H eq_refl Rm) as X. rewrite <- F in X. unfold loss in X at 2. change (zeros 9) with (zeros (nQt 3)) in X. rewrite !energy_zeros in X by auto.
    replace (mv 9 9 (fst e) q) with (appFs 9 9 e q (zeros (nQt 3))); [lra|]. unfold appFs, vadd. apply nth_ext with (d := 0) (d' := 0).
    { rewrite map_length, combine_length, !len_mv. reflexivity. }
    intros i Hi. rewrite map_length, combine_length, !len_mv in Hi. change (map (fun p => fst p + snd p) (combine (mv 9 9 (fst e) q) (mv 9 9 (snd e) (zeros (nQt 3))))) with (vadd (mv 9 9 (fst e) q) (mv 9 9 (snd e) (zeros (nQt 3)))).
    rewrite nth_vadd by (now rewrite !len_mv). rewrite (nth_mv 9 9 (snd e)) by assumption. rewrite sum0; [ring|]. intros j. unfold zeros. rewrite nth_repeat. ring.
Qed.
Theorem C69_boundary2 l nx ny : solid l -> unit2 nx ny ->
  (exists e a, setUpFs2R l l nx ny true = Ok (e, a) /\
     forall q, length q = 5%nat -> (forall i, (i < 2)%nat -> vel 2 (appFs 5 5 e q q) i = 0) /\ 0 <= loss 2 l (co2 nx ny) q (appFs 5 5 e q q)) /\
  (exists e a, setUpFs2R l l nx ny false = Ok (e, a) /\ forall q, length q = 5%nat -> 0 <= loss 2 l (co2 nx ny) q (mv 5 5 (fst e) q)).
Proof.
  intros L O. pose proof (unit2_dot _ _ O) as U. split.
  - destruct (free2 l nx ny L O) as (e & a & E & P). exists e, a. split; [assumption|]. intros q H. destruct (free_exists 2 l (co2 nx ny) q dim2 U L H) as (f & F).
    destruct (P q f H F) as [-> _]. split; [|now apply free_loss]. intros i Hi. rewrite vel_flux by auto. destruct F as (_ & _ & F). rewrite F by assumption. destruct L as [L _]. field. lra.
  - destruct (face2 l l nx ny L L O) as (e & a & e' & a' & E & P). unfold faceFs2R, faceFs2 in E. fold (setUpFs2R l l nx ny false) in E. apply bind_ok in E. destruct E as (x & E & E2).
    apply bind_ok in E2. destruct E2 as (y & _ & E2). injection E2 as -> ->. exists e, a. split; [assumption|]. intros q H.
    destruct (riemann_exists 2 l l (co2 nx ny) q (zeros 5) dim2 U L L H eq_refl) as (sL & sR & Rm). destruct (P q (zeros 5) sL sR H eq_refl Rm) as [[F _] _].
    pose proof (riemann_loss 2 l l (co2 nx ny) q (zeros 5) sL sR dim2 U L L H eq_refl Rm) as X. rewrite <- F in X. unfold loss in X at 2. change (zeros 5) with (zeros (nQt 2)) in X. rewrite !energy_zeros in X by auto.
    replace (mv 5 5 (fst e) q) with (appFs 5 5 e q (zeros (nQt 2))); [lra|]. unfold appFs, vadd. apply nth_ext with (d := 0) (d' := 0).
    { rewrite map_length, combine_length, !len_mv. reflexivity. }
    intros i Hi. rewrite map_length, combine_length, !len_mv in Hi. change (map (fun p => fst p + snd p) (combine (mv 5 5 (fst e) q) (mv 5 5 (snd e) (zeros (nQt 2))))) with (vadd (mv 5 5 (fst e) q) (mv 5 5 (snd e) (zeros (nQt 2)))).
    rewrite nth_vadd by (now rewrite !len_mv). rewrite (nth_mv 5 5 (snd e)) by assumption. rewrite sum0; [ring|]. intros j. unfold zeros. rewrite nth_repeat. ring.
Qed.
(** the energy the theorems speak of is an energy *)
Theorem C69_energy d m q : dim d -> solid m -> length q = nQt d -> 0 <= energy2 d m q q /\ (energy2 d m q q = 0 -> q = zeros (nQt d)).
Proof. apply energy_pos. Qed.
Print Assumptions C69_interface3.
Print Assumptions C69_interface2.
Print Assumptions C69_boundary3.
Print Assumptions C69_boundary2.
Print Assumptions C69_energy.

(** the materials, frames and states of C67_ex and C68_ex; the loss is not always zero: waves that leave *)
Example C69_ex : loss 2 exL (co2 1 0) [0; 0; 0; 1; 0] (flux 2 exL (co2 1 0) [1; 0; 0; 0; 0]) <> 0.
Proof. cbv [loss energy2 compliance flux traction sum dot sig vel mk mkT pairs posOf delta strain exL rho lam mu co2 seq fold_left map nth nSt length app Nat.add Nat.eqb fst snd orb andb INR]. lra. Qed.

(** ** C70: fluxes of the strain for the attenuation *)

(** they use the velocity of the same solution *)
Theorem C70_interface3 l r n s t : solid l -> solid r -> orthonormal n s t -> exists e a e' a', faceFs3R l r n s t = Ok ((e, a), (e', a')) /\
  forall qL qR sL sR, length qL = 9%nat -> length qR = 9%nat -> riemann 3 l r (co3 n) qL qR sL sR ->
    appFs 6 9 a qL qR = strainFlux 3 (co3 n) (vel 3 sL) /\ appFs 6 9 a' qR qL = strainFlux 3 (neg (co3 n)) (vel 3 sR).
Proof.
  intros L R O. destruct (face3 l r n s t L R O) as (e & a & e' & a' & E & P). exists e, a, e', a'. split; [assumption|]. intros. apply P; assumption.
Qed.
Theorem C70_interface2 l r nx ny : solid l -> solid r -> unit2 nx ny -> exists e a e' a', faceFs2R l r nx ny = Ok ((e, a), (e', a')) /\
  forall qL qR sL sR, length qL = 5%nat -> length qR = 5%nat -> riemann 2 l r (co2 nx ny) qL qR sL sR ->
    appFs 3 5 a qL qR = strainFlux 2 (co2 nx ny) (vel 2 sL) /\ appFs 3 5 a' qR qL = strainFlux 2 (neg (co2 nx ny)) (vel 2 sR).
Proof.
  intros L R O. destruct (face2 l r nx ny L R O) as (e & a & e' & a' & E & P). exists e, a, e', a'. split; [assumption|]. intros. apply P; assumption.
Qed.
Theorem C70_surface3 l n s t : solid l -> orthonormal n s t -> exists e a, setUpFs3R l l n s t true = Ok (e, a) /\
  forall q f, length q = 9%nat -> freeState 3 l (co3 n) q f -> appFs 6 9 a q q = strainFlux 3 (co3 n) (vel 3 f).
Proof. intros L O. destruct (free3 l n s t L O) as (e & a & E & P). exists e, a. split; [assumption|]. intros. apply P; assumption. Qed.
Theorem C70_surface2 l nx ny : solid l -> unit2 nx ny -> exists e a, setUpFs2R l l nx ny true = Ok (e, a) /\
  forall q f, length q = 5%nat -> freeState 2 l (co2 nx ny) q f -> appFs 3 5 a q q = strainFlux 2 (co2 nx ny) (vel 2 f).
Proof. intros L O. destruct (free2 l nx ny L O) as (e & a & E & P). exists e, a. split; [assumption|]. intros. apply P; assumption. Qed.
Print Assumptions C70_interface3.
Print Assumptions C70_interface2.
Print Assumptions C70_surface3.
Print Assumptions C70_surface2.
Example C70_ex : exists sL sR, riemann 3 exL exR (co3 exN) exQL exQR sL sR.
Proof. apply C68_ex. Qed.
