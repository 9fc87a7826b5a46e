(** Kernels of the ADER-DG solver with LIBXSMM for fused forward simulations: property C82. *)
From Coq Require Import Ring ZArith.
From Verif Require Import Util MeshConn MatMul MatSparse Props_Mat Ader AderSpec AderV AderCk AderInt Props_Ader AderGen AderGenV MmXsmm XsmmSpec XsmmRef Elastic ElSpec ElCsr FakeMats CscV FuSpec FuPats
  AderFu AderFuG AderFuV Props_AderSg.
Local Open Scope nat_scope.

Section Data.
Context {T : Type}.
Variables (A : alg T) (cf : conf).
Local Notation zero := (aZero A).
Local Notation nDi := (nDis (cEl cf)).
Local Notation nE := (nQtsE (cEl cf)).
Local Notation nM := (nQtsM (cEl cf)).
Local Notation nRm := (cRms cf).
(** the values [starEv], [starAv], [srcAv] of the sparse star and source matrices have the entries of the dense matrices [starE], [starA], [srcA] for the patterns [P];
    the anelastic star matrices have the columns of the velocities *)
Definition sparseData (P : pats) (starE starA srcA starEv starAv srcAv : list (list T)) : Prop :=
  (length starEv = nDi /\ forall di, di < nDi -> compressed A (pE P) nE nE 0 (nth di starEv []) (nth di starE [])) /\
  (0 < nRm -> length starAv = nDi /\ forall di, di < nDi -> compressed A (pA P) nM nDi nM (nth di starAv []) (nth di starA [])) /\
  (length srcAv = nRm /\ forall rm, rm < nRm -> compressed A (pS P) nM nM 0 (nth rm srcAv []) (nth rm srcA [])).
(** tolerances for zero and the mark of removed entries; the matrices have zeros and values above the tolerance *)
Definition tolerances (big small isMax : T -> bool) (maxv : T) (mats : list (list T)) : Prop :=
  tolOk A big small isMax maxv /\ forall m, In m mats -> clean A big isMax m.

Lemma cleans big small isMax maxv mats n : tolerances big small isMax maxv mats -> length mats = n -> forall i, i < n -> clean A big isMax (nth i mats []).
Proof. intros (_ & C) L i Hi. apply C. apply nth_In. lia. Qed.

(** the patterns which the kernels use for an element type *)
Lemma pats_of P : fakePats nDi = Ok P -> noEmptyRow (pE P) nE /\ noEmptyRow (pFE P) nE /\ noEmptyRow (pFA P) nM /\
  (forall f, length f = nE * nE -> compressed A (pFE P) nE nE 0 f f) /\ (forall f, length f = nM * nE -> compressed A (pFA P) nM nE 0 f f).
Proof.
  intros H. assert (D : nDi = 2 \/ nDi = 3) by (destruct (cEl cf); auto).
  unfold nQtsE, nQtsM. destruct D as [D|D]; rewrite D in *; [rewrite pats2 in H|rewrite pats3 in H]; injection H as <-; cbn [pE pFE pFA];
    (split; [apply noEmpty_ok; reflexivity|]); (split; [apply noEmpty_ok; reflexivity|]); (split; [apply noEmpty_ok; reflexivity|]).
  - split; intros f Lf; [apply (proj1 (full_compressed A 2 f (or_introl eq_refl)) 5 eq_refl Lf)|apply (proj2 (full_compressed A 2 f (or_introl eq_refl)) 3 5 eq_refl eq_refl Lf)].
  - split; intros f Lf; [apply (proj1 (full_compressed A 3 f (or_intror eq_refl)) 9 eq_refl Lf)|apply (proj2 (full_compressed A 3 f (or_intror eq_refl)) 6 9 eq_refl eq_refl Lf)].
Qed.
End Data.

Section Props.
Context {T : Type}.
Variables (A : alg T) (cf : conf) (L : xsmm T).
Local Notation zero := (aZero A).
Local Notation one := (aOne A).
Local Notation add := (aAdd A).
Local Notation sub := (aSub A).
Local Notation mul := (aMul A).
Local Notation div := (aDiv A).
Local Notation opp := (aOpp A).
Local Notation ofN := (aOfN A).
Local Notation isz := (aIsz A).
Local Notation nDi := (nDis (cEl cf)).
Local Notation nMd := (nModes (cEl cf) (cSp cf)).
Local Notation nMdFa := (nModesFa (cEl cf) (cSp cf)).
Local Notation nFa := (nElFas (cEl cf)).
Local Notation nE := (nQtsE (cEl cf)).
Local Notation nM := (nQtsM (cEl cf)).
Local Notation nCr := (cCrs cf).
Local Notation nRm := (cRms cf).

(** ** C82: the LIBXSMM kernels of fused simulations have the results of the kernels without libraries, for every library with the
       matrix products specified in XsmmSpec.v *)

(** the sparse matrices of all materials and Jacobians have the entries of the dense ones for the patterns of the kernels *)
Theorem C82_sparse_data rho lam mu jacInv (nzs : list (T * T * T)) : length nzs = nRm ->
  let starE := if nDi =? 2 then starE2 zero one add sub mul div opp rho lam mu jacInv else starE3 zero one add sub mul div opp rho lam mu jacInv in
  let starA := if nDi =? 2 then starA2 zero one add mul div opp jacInv else starA3 zero one add mul div opp jacInv in
  let srcA := map (fun n => srcDense zero nDi (fst (fst n)) (snd (fst n)) (snd n)) nzs in
  let starEv := if nDi =? 2 then starE2sp zero one add sub mul div opp rho lam mu jacInv else starE3sp zero one add sub mul div opp rho lam mu jacInv in
  let starAv := if nDi =? 2 then starA2sp zero one add mul div opp jacInv else starA3sp zero one add mul div opp jacInv in
  exists P, fakePats nDi = Ok P /\ sparseData A cf P starE starA srcA starEv starAv (map (srcSp zero nDi) srcA).
Proof.
  intros Ln. cbv zeta. unfold sparseData, nQtsE, nQtsM. assert (D : nDi = 2 \/ nDi = 3) by (destruct (cEl cf); auto).
  assert (S : forall rm, rm < nRm -> exists a b c, nth rm (map (fun n => srcDense zero nDi (fst (fst n)) (snd (fst n)) (snd n)) nzs) [] = srcDense zero nDi a b c /\
    nth rm (map (srcSp zero nDi) (map (fun n => srcDense zero nDi (fst (fst n)) (snd (fst n)) (snd n)) nzs)) [] = srcSp zero nDi (srcDense zero nDi a b c)).
  { intros rm Hrm. set (g := fun n => srcDense zero nDi (fst (fst n)) (snd (fst n)) (snd n)). destruct (nth_error nzs rm) as [((a & b) & c)|] eqn:E; [|apply nth_error_None in E; lia]. exists a, b, c.
    assert (E1 := map_nth_error g _ _ E). assert (E2 := map_nth_error (srcSp zero nDi) _ _ E1).
    split; [rewrite (nth_error_nth _ _ [] E1)|rewrite (nth_error_nth _ _ [] E2)]; reflexivity. }
  destruct D as [D|D]; rewrite D in *; cbn [Nat.eqb].
  - eexists. split; [apply pats2|]. cbn [pE pA pS]. destruct csrE2 as (v & E), csrA2 as (w & F), srcPat2 as (u & G). split; [|split].
    + split; [reflexivity|]. intros di Hdi. apply (represents_compressed A 5 5 0 _ (Build_comp v [0; 2; 4; 6; 8; 10] idxE2)); [reflexivity|]. now apply sparse2.
    + intros _. split; [reflexivity|]. intros di Hdi. apply (represents_compressed A 3 2 3 _ (Build_comp w [0; 1; 2; 4] idxA2)); [reflexivity|]. now apply sparseA2.
    + split; [now rewrite !map_length|]. intros rm Hrm. destruct (S rm Hrm) as (a & b & c & -> & ->).
      apply (represents_compressed A 3 3 0 _ (Build_comp u [0; 2; 4; 5] [0; 1; 0; 1; 2])); [reflexivity|]. exact (src_represents A 2 a b c _ (or_introl eq_refl) G).
  - eexists. split; [apply pats3|]. cbn [pE pA pS]. destruct csrE3 as (v & E), csrA3 as (w & F), srcPat3 as (u & G). split; [|split].
    + split; [reflexivity|]. intros di Hdi. apply (represents_compressed A 9 9 0 _ (Build_comp v [0; 3; 6; 9; 11; 13; 15; 18; 21; 24] idxE3)); [reflexivity|]. now apply sparse3.
    + intros _. split; [reflexivity|]. intros di Hdi. apply (represents_compressed A 6 3 6 _ (Build_comp w [0; 1; 2; 3; 5; 7; 9] idxA3)); [reflexivity|]. now apply sparseA3.
    + split; [now rewrite !map_length|]. intros rm Hrm. destruct (S rm Hrm) as (a & b & c & -> & ->).
      apply (represents_compressed A 6 6 0 _ (Build_comp u [0; 3; 6; 9; 10; 11; 12] [0; 1; 2; 0; 1; 2; 0; 1; 2; 3; 4; 5])); [reflexivity|]. exact (src_represents A 3 a b c _ (or_intror eq_refl) G).
Qed.

Variables (big small isMax : T -> bool) (maxv : T) (hier : bool) (P : pats).
Hypothesis Pats : fakePats nDi = Ok P.
Local Opaque nModes nModesCk nQtsE nQtsM nDis nModesFa nElFas fakePats.

Theorem C82_time_prediction qfma stiffT bd starE starA srcA starEv starAv srcAv rfs dT dofsE dofsA junk scr dE dA tE tA :
  packedCsr A (xCsr L) -> packedCsc A (xCsc L) -> tolerances A big small isMax maxv stiffT -> sparseData A cf P starE starA srcA starEv starAv srcAv ->
  blocks A cf stiffT bd -> (hier = true -> forall de, 1 <= de < cTi cf -> bd de = nModes (cEl cf) (cSp cf - de)) -> (simplex cf = true -> fullCols A cf stiffT bd) ->
  1 <= cTi cf -> (0 < nRm -> 1 < cTi cf) -> matrices cf stiffT starE starA srcA rfs -> lowers A cf (predK A cf stiffT) -> ckArrays cf junk scr dE dA tE tA ->
  length dofsE = nE * nMd * nCr -> sized nRm (nM * nMd * nCr) dofsA ->
  exists ks ksF st, genTime zero one cf = Ok ks /\ genTimeF zero big small isMax maxv qfma hier cf P stiffT = Ok ksF /\ storeStiffTF zero opp big small isMax maxv qfma hier cf stiffT = Ok st /\
    sameCk (ckVanilla zero add mul div ofN isz cf ks (storeStiffT opp cf stiffT) rfs dT starE starA srcA dofsE dofsA junk scr dE dA tE tA)
           (ckFused zero add mul div ofN L cf ksF st rfs dT starEv starAv srcAv dofsE dofsA junk scr dE dA tE tA).
Proof using.
  intros Lr Lc Tol (V1 & V2 & V3) Bl Hier Full HT HT2 (H1 & H2 & H3 & H4 & H5) Low (J1 & J2 & J3 & J4 & J5 & J6) Lq (LA & SA).
  assert (Cl := cleans A _ _ _ _ _ _ Tol (proj1 H1)). destruct Tol as (Tol & _).
  set (q := fun z => (vals A cf nMd dofsE z, fun rm => vals A cf nMd (nth rm dofsA []) z) : state).
  assert (Q1 : rep A cf nE nMd dofsE (fun z => fst (q z))) by (apply (rep_vals A cf nE nMd dofsE Lq)).
  assert (Q3 : forall rm, rm < nRm -> rep A cf nM nMd (nth rm dofsA []) (fun z => snd (q z) rm)) by (intros rm Hrm; apply (rep_vals A cf nM nMd _ (SA rm Hrm))).
  destruct (genTime_ok A cf) as (ks & Gen & _).
  destruct (genTimeF_ok A cf big small isMax maxv qfma hier P Tol stiffT bd H1 Cl Bl Hier HT2) as (mats & ksF & st & GenF & Sto & _).
  destruct (ckVanilla_ok A cf ks stiffT rfs dT starE starA srcA Gen H1 H2 H3 H4 H5 Low q dofsE dofsA junk scr dE dA tE tA HT J1 J2 J3 J4 J5 J6 LA Q1 Q3) as (s & E & I).
  destruct (ckFused_ok A cf L Lr Lc big small isMax maxv qfma hier P Tol ksF st stiffT bd rfs dT starE starA srcA starEv starAv srcAv q H1 Cl Bl Hier Full GenF Sto V1 V2 V3 H5 HT2 Low
    dofsE dofsA junk scr dE dA tE tA HT J1 J2 J3 J4 J5 J6 LA Q1 Q3) as (s' & E' & I').
  exists ks, ksF, st. split; [exact Gen|]. split; [exact GenF|]. split; [exact Sto|]. rewrite E, E'. exact (ckInv_same A cf stiffT rfs dT starE starA srcA q s s' I I').
Qed.

Theorem C82_volume stiff br starE starA srcA starEv starAv srcAv rfs tE tA junk dofsE dofsA scr :
  packedCsr A (xCsr L) -> packedCsc A (xCsc L) -> tolerances A big small isMax maxv stiff -> sparseData A cf P starE starA srcA starEv starAv srcAv ->
  rowBlock A cf stiff br -> (hier = true -> br = nModes (cEl cf) (cSp cf - 1)) -> (0 < nRm -> colOrder A cf stiff) ->
  matrices cf stiff starE starA srcA rfs -> testsLow A cf stiff -> length junk = nM * nMd * nCr -> length scr = nE * nMd * nCr ->
  length tE = nE * nMd * nCr -> sized nRm (nM * nMd * nCr) tA -> length dofsE = nE * nMd * nCr -> sized nRm (nM * nMd * nCr) dofsA ->
  exists ks ksF st, genVol zero one cf = Ok ks /\ genVolF zero big small isMax maxv false hier cf P stiff = Ok ksF /\ storeStiffF zero big small isMax maxv false hier cf stiff = Ok st /\
    sameVol (volInt zero add sub mul isz cf ks stiff rfs starE starA srcA tE tA junk dofsE dofsA scr)
            (volFused zero add sub mul L cf ksF st rfs starEv starAv srcAv tE tA junk dofsE dofsA scr).
Proof using Pats.
  intros Lr Lc Tol (V1 & V2 & V3) Bl Hier Ord (H1 & H2 & H3 & H4 & H5) Low Lj Ls Lt (LtA & StA) Lq (LA & SA).
  assert (Cl := cleans A _ _ _ _ _ _ Tol (proj1 H1)). destruct Tol as (Tol & _). destruct (pats_of A cf P Pats) as (Ne & _).
  set (t := fun z => (vals A cf nMd tE z, fun rm => vals A cf nMd (nth rm tA []) z) : state).
  assert (T1 : rep A cf nE nMd tE (fun z => fst (t z))) by (apply (rep_vals A cf nE nMd tE Lt)).
  assert (T3 : forall rm, rm < nRm -> rep A cf nM nMd (nth rm tA []) (fun z => snd (t z) rm)) by (intros rm Hrm; apply (rep_vals A cf nM nMd _ (StA rm Hrm))).
  assert (Q1 := rep_vals A cf nE nMd dofsE Lq). assert (Q3 := fun rm Hrm => rep_vals A cf nM nMd _ (SA rm Hrm)).
  destruct (genVol_ok A cf) as (ks & Gen & _).
  destruct (genVolF_ok A cf big small isMax maxv false hier P Tol stiff br H1 Cl Bl Hier) as (mats & ksF & st & GenF & Sto & _).
  destruct (volInt_ok A cf rfs starE starA srcA stiff H1 H2 H3 H4 H5 Low ks tE tA junk dofsE dofsA scr t _ _ Gen Lj Ls T1 LtA T3 Q1 LA Q3) as (e & a & s & E & _ & RE & LE & RA).
  destruct (volFused_ok A cf L Lr Lc big small isMax maxv false hier P Tol ksF st stiff br rfs starE starA srcA starEv starAv srcAv H1 Cl Bl Hier Ord eq_refl GenF Sto V1 Ne V2 V3 H5
    tE tA junk dofsE dofsA scr t _ _ Lj Ls T1 LtA T3 Q1 LA Q3) as (e' & a' & s' & E' & _ & RE' & LE' & RA').
  exists ks, ksF, st. split; [exact Gen|]. split; [exact GenF|]. split; [exact Sto|]. rewrite E, E'.
  assert (e = e') as <- by (eapply rep_inj; [exact RE|exact RE']). assert (a = a') as <- by (eapply reps_eq; [exact LE|exact LE'|exact RA|exact RA']).
  exists e, a, s, s'. auto.
Qed.

(** flux solvers: the patterns are full, so that the dense matrices are the values.  [ignoresK]: see FuSpec.v *)
Local Notation isE := (fun f F : list T => compressed A (pFE P) nE nE 0 f F).
Local Notation isA := (fun f F : list T => compressed A (pFA P) nM nE 0 f F).

Theorem C82_surface_local qfma fIntLN fIntT rfs fsE fsA tE junk dofsE dofsA scr0 scr1 :
  packedCsr A (xCsr L) -> packedCsc A (xCsc L) -> (0 < nRm -> ignoresK (xCsr L)) -> tolerances A big small isMax maxv (fIntLN ++ fIntT) -> fluxCols A cf fIntLN ->
  fluxMatrices cf fIntLN fIntT -> length rfs = nRm -> sized nFa (nE * nE) fsE -> (0 < nRm -> sized nFa (nM * nE) fsA) ->
  length junk = nM * nMd * nCr -> length scr0 = nE * nMdFa * nCr -> length scr1 = nE * nMdFa * nCr ->
  length tE = nE * nMd * nCr -> length dofsE = nE * nMd * nCr -> sized nRm (nM * nMd * nCr) dofsA ->
  exists ks ksF ln tr, genSurf zero one cf = Ok ks /\ genSurfF zero big small isMax maxv qfma cf P fIntLN fIntT = Ok ksF /\ storeFluxF zero big small isMax maxv qfma cf fIntLN fIntT = Ok (ln, tr) /\
    sameSurf (surfLocal zero add mul isz cf ks fIntLN fIntT rfs fsE fsA tE junk dofsE dofsA scr0 scr1)
             (surfLocalFused zero add mul L cf ksF ln tr rfs fsE fsA tE junk dofsE dofsA scr0 scr1).
Proof using Pats.
  intros Lr Lc Ig Tol Cols (F1 & F2) Lrf S1 S2 Lj L0 L1 Lt Lq (LA & SA).
  assert (C1 : forall i, i < nFa + nFluxN (cEl cf) -> clean A big isMax (nth i fIntLN [])).
  { intros i Hi. apply (proj2 Tol). apply in_or_app. left. apply nth_In. rewrite (proj1 F1). exact Hi. }
  assert (C2 : forall i, i < nFa -> clean A big isMax (nth i fIntT [])).
  { intros i Hi. apply (proj2 Tol). apply in_or_app. right. apply nth_In. rewrite (proj1 F2). exact Hi. }
  destruct Tol as (Tol & _). destruct (pats_of A cf P Pats) as (_ & NE & NA & CE & CA).
  assert (T1 := rep_vals A cf nE nMd tE Lt). assert (Q1 := rep_vals A cf nE nMd dofsE Lq). assert (Q3 := fun rm Hrm => rep_vals A cf nM nMd _ (SA rm Hrm)).
  destruct (genSurf_ok A cf) as (ks & Gen & _).
  destruct (genSurfF_ok A cf big small isMax maxv qfma P Tol fIntLN fIntT F1 F2 C1 C2) as (ksF & ln & tr & GenF & Sto & _).
  destruct (surfLocal_ok A cf rfs ks fIntLN fIntT Lrf Gen F2 F1 fsE fsA tE junk dofsE dofsA scr0 scr1 _ _ _ S1 S2 Lj L0 L1 T1 Q1 LA Q3) as (e & a & s0 & s1 & E & _ & _ & RE & LE & RA).
  destruct (surfLocalG_ok A cf rfs fIntLN fIntT Lrf (fLN L ksF ln) (fFs L ksF 1) (fFs L ksF 3) (fT L ksF 2 tr) (fT L ksF 4 tr) isE isA
      (fLN_ok A cf L Lc big small isMax maxv qfma P Tol ksF ln tr fIntLN fIntT F1 F2 C1 C2 Cols GenF Sto)
      (fun f F fi g s Hf => fFsE_ok A cf L Lr big small isMax maxv qfma P Tol ksF ln tr fIntLN fIntT F1 F2 C1 C2 GenF Sto f F fi g s Hf NE)
      (fT_ok A cf L Lc big small isMax maxv qfma P Tol ksF ln tr fIntLN fIntT F1 F2 C1 C2 GenF Sto)
      (fun R f F fi g s Hf => fFsA_ok A cf L Lr big small isMax maxv qfma P Tol ksF ln tr fIntLN fIntT F1 F2 C1 C2 GenF Sto f F fi g s (Ig R) R Hf NA)
      (fun _ => fTA_ok A cf L Lc big small isMax maxv qfma P Tol ksF ln tr fIntLN fIntT F1 F2 C1 C2 GenF Sto)
      fsE fsA fsE fsA tE junk dofsE dofsA scr0 scr1 _ _ _ (proj1 S1) (fun fa Hfa => CE _ (proj2 S1 fa Hfa))
      (fun R => conj (proj1 (S2 R)) (fun fa Hfa => CA _ (proj2 (S2 R) fa Hfa))) Lj L0 L1 T1 Q1 LA Q3) as (e' & a' & r0 & r1 & E' & _ & _ & RE' & LE' & RA').
  exists ks, ksF, ln, tr. split; [exact Gen|]. split; [exact GenF|]. split; [exact Sto|]. unfold surfLocalFused. rewrite E, E'.
  assert (e = e') as <- by (eapply rep_inj; [exact RE|exact RE']). assert (a = a') as <- by (eapply reps_eq; [exact LE|exact LE'|exact RA|exact RA']).
  exists e, a, s0, s1, r0, r1. auto.
Qed.

(** data of a neighbour that is projected to the face and sent *)
Theorem C82_sent_data qfma fIntLN fIntT fa vId fId tE o :
  packedCsc A (xCsc L) -> tolerances A big small isMax maxv (fIntLN ++ fIntT) -> fluxCols A cf fIntLN ->
  fluxMatrices cf fIntLN fIntT -> matrixOf cf fa vId fId < nFa + nFluxN (cEl cf) -> length tE = nE * nMd * nCr -> length o = nE * nMdFa * nCr ->
  exists ks ksF ln tr o', genSurf zero one cf = Ok ks /\ genSurfF zero big small isMax maxv qfma cf P fIntLN fIntT = Ok ksF /\ storeFluxF zero big small isMax maxv qfma cf fIntLN fIntT = Ok (ln, tr) /\
    neighFluxInt zero add mul isz cf ks fIntLN fa vId fId tE o = Ok o' /\ neighFluxIntFused L cf ksF ln fa vId fId tE o = Ok o'.
Proof using.
  intros Lc Tol Cols (F1 & F2) Hid Lt Lo.
  assert (C1 : forall i, i < nFa + nFluxN (cEl cf) -> clean A big isMax (nth i fIntLN [])).
  { intros i Hi. apply (proj2 Tol). apply in_or_app. left. apply nth_In. rewrite (proj1 F1). exact Hi. }
  assert (C2 : forall i, i < nFa -> clean A big isMax (nth i fIntT [])).
  { intros i Hi. apply (proj2 Tol). apply in_or_app. right. apply nth_In. rewrite (proj1 F2). exact Hi. }
  destruct Tol as (Tol & _). assert (T1 := rep_vals A cf nE nMd tE Lt).
  destruct (genSurf_ok A cf) as (ks & Gen & _). destruct (genSurfF_ok A cf big small isMax maxv qfma P Tol fIntLN fIntT F1 F2 C1 C2) as (ksF & ln & tr & GenF & Sto & _).
  destruct (neighFluxInt_ok A cf (repeat zero nRm) ks fIntLN (repeat_length _ _) Gen F1 fa vId fId tE _ o Hid T1 Lo) as (o1 & E & R).
  destruct (neighFluxIntG_ok A cf fIntLN (fLN L ksF ln) (fLN_ok A cf L Lc big small isMax maxv qfma P Tol ksF ln tr fIntLN fIntT F1 F2 C1 C2 Cols GenF Sto) fa vId fId tE _ o Hid T1 Lo) as (o2 & E' & R').
  exists ks, ksF, ln, tr, o1. split; [exact Gen|]. split; [exact GenF|]. split; [exact Sto|]. split; [exact E|]. unfold neighFluxIntFused. rewrite E'. f_equal. symmetry. eapply rep_inj; [exact R|exact R'].
Qed.

(** contribution of a neighbour: its data, or data [p] that was projected to the face by the kernel above *)
Theorem C82_surface_neigh qfma fIntLN fIntT fa vId fId fsE fsA tE pre dofsE upA scr0 scr1 ks :
  packedCsr A (xCsr L) -> packedCsc A (xCsc L) -> (0 < nRm -> ignoresK (xCsr L)) -> tolerances A big small isMax maxv (fIntLN ++ fIntT) -> fluxCols A cf fIntLN ->
  fluxMatrices cf fIntLN fIntT -> fa < nFa -> matrixOf cf fa vId fId < nFa + nFluxN (cEl cf) ->
  length fsE = nE * nE -> (0 < nRm -> length fsA = nM * nE) -> length scr0 = nE * nMdFa * nCr -> length scr1 = nE * nMdFa * nCr -> genSurf zero one cf = Ok ks ->
  match pre with
  | None => length tE = nE * nMd * nCr
  | Some p => exists t o, length t = nE * nMd * nCr /\ length o = nE * nMdFa * nCr /\ neighFluxInt zero add mul isz cf ks fIntLN fa vId fId t o = Ok p
  end -> length dofsE = nE * nMd * nCr -> length upA = nM * nMd * nCr ->
  exists ksF ln tr, genSurfF zero big small isMax maxv qfma cf P fIntLN fIntT = Ok ksF /\ storeFluxF zero big small isMax maxv qfma cf fIntLN fIntT = Ok (ln, tr) /\
    sameSurf (surfNeigh zero add mul isz cf ks fIntLN fIntT fa vId fId fsE fsA tE pre dofsE upA scr0 scr1)
             (surfNeighFused L cf ksF ln tr fa vId fId fsE fsA tE pre dofsE upA scr0 scr1).
Proof using Pats.
  intros Lr Lc Ig Tol Cols (F1 & F2) Hfa Hid S1 S2 L0 L1 Gen Pre Lq Lu.
  assert (C1 : forall i, i < nFa + nFluxN (cEl cf) -> clean A big isMax (nth i fIntLN [])).
  { intros i Hi. apply (proj2 Tol). apply in_or_app. left. apply nth_In. rewrite (proj1 F1). exact Hi. }
  assert (C2 : forall i, i < nFa -> clean A big isMax (nth i fIntT [])).
  { intros i Hi. apply (proj2 Tol). apply in_or_app. right. apply nth_In. rewrite (proj1 F2). exact Hi. }
  destruct Tol as (Tol & _). destruct (pats_of A cf P Pats) as (_ & NE & NA & CE & CA).
  destruct (genSurfF_ok A cf big small isMax maxv qfma P Tol fIntLN fIntT F1 F2 C1 C2) as (ksF & ln & tr & GenF & Sto & _).
  assert (exists t, match pre with None => rep A cf nE nMd tE t | Some p => rep A cf nE nMdFa p (fun z => faceInt A cf (nth (matrixOf cf fa vId fId) fIntLN []) (t z)) end) as (t & Rt).
  { destruct pre as [p|]; [|exists (vals A cf nMd tE); apply rep_vals; exact Pre]. destruct Pre as (t & o & Lt & Lo & E).
    destruct (neighFluxInt_ok A cf (repeat zero nRm) ks fIntLN (repeat_length _ _) Gen F1 fa vId fId t _ o Hid (rep_vals A cf nE nMd t Lt) Lo) as (o1 & E1 & R).
    rewrite E in E1. injection E1 as <-. eexists. exact R. }
  destruct (surfNeigh_ok A cf (repeat zero nRm) ks fIntLN fIntT (repeat_length _ _) Gen F2 F1 fa vId fId fsE fsA tE pre dofsE upA scr0 scr1 t _ _ Hfa Hid S1 S2 L0 L1 Rt
    (rep_vals A cf nE nMd dofsE Lq) (rep_vals A cf nM nMd upA Lu)) as (d & u & s0 & s1 & E & _ & _ & RE & RU).
  destruct (surfNeighG_ok A cf fIntLN fIntT (fLN L ksF ln) (fFs L ksF 1) (fFs L ksF 3) (fT L ksF 2 tr) (fT L ksF 4 tr) isE isA
      (fLN_ok A cf L Lc big small isMax maxv qfma P Tol ksF ln tr fIntLN fIntT F1 F2 C1 C2 Cols GenF Sto)
      (fun f F fi g s Hf => fFsE_ok A cf L Lr big small isMax maxv qfma P Tol ksF ln tr fIntLN fIntT F1 F2 C1 C2 GenF Sto f F fi g s Hf NE)
      (fT_ok A cf L Lc big small isMax maxv qfma P Tol ksF ln tr fIntLN fIntT F1 F2 C1 C2 GenF Sto)
      (fun R f F fi g s Hf => fFsA_ok A cf L Lr big small isMax maxv qfma P Tol ksF ln tr fIntLN fIntT F1 F2 C1 C2 GenF Sto f F fi g s (Ig R) R Hf NA)
      (fun _ => fTA_ok A cf L Lc big small isMax maxv qfma P Tol ksF ln tr fIntLN fIntT F1 F2 C1 C2 GenF Sto)
      fa vId fId fsE fsA fsE fsA tE pre dofsE upA scr0 scr1 t _ _ Hfa Hid (CE _ S1) (fun R => CA _ (S2 R)) L0 L1 Rt
    (rep_vals A cf nE nMd dofsE Lq) (rep_vals A cf nM nMd upA Lu)) as (d' & u' & r0 & r1 & E' & _ & _ & RE' & RU').
  exists ksF, ln, tr. split; [exact GenF|]. split; [exact Sto|]. unfold surfNeighFused. rewrite E, E'.
  assert (d = d') as <- by (eapply rep_inj; [exact RE|exact RE']). assert (u = u') as <- by (eapply rep_inj; [exact RU|exact RU']).
  exists d, u, s0, s1, r0, r1. auto.
Qed.
End Props.

Print Assumptions C82_sparse_data.
Print Assumptions C82_time_prediction.
Print Assumptions C82_volume.
Print Assumptions C82_surface_local.
Print Assumptions C82_sent_data.
Print Assumptions C82_surface_neigh.

(** ** Concrete cases: triangles of second order, two simulations, one relaxation mechanism, exact integers and a library with the required products, which leaves
       columns (or rows) without entries untouched *)
Local Open Scope Z_scope.
Definition fuLib := refLibR algZ true.
Example fu_lib : packedCsr algZ (xCsr fuLib) /\ packedCsc algZ (xCsc fuLib) /\ ignoresK (xCsr fuLib).
Proof. split; [apply refLibR_ok|]. split; [apply refLibR_ok|]. intros m n k k' ldA ldB ldC acc. reflexivity. Qed.
Definition fuBig (v : Z) := negb (v =? 0).
Definition fuSmall (v : Z) := v =? 0.
Definition fuIsMax (v : Z) := v =? 1000.
Ltac cln := intros m Hm v Hv; cbn in Hm; repeat (destruct Hm as [<- |Hm]; [cbn in Hv; repeat (destruct Hv as [<- |Hv]; [split; [reflexivity|intros H; try reflexivity; discriminate]|]); destruct Hv|]); destruct Hm.
Example fu_tolerances : tolerances algZ fuBig fuSmall fuIsMax 1000 exStiffT /\ tolerances algZ fuBig fuSmall fuIsMax 1000 exStiff /\ tolerances algZ fuBig fuSmall fuIsMax 1000 (exLN ++ exT).
Proof.
  assert (Tol : tolOk algZ fuBig fuSmall fuIsMax 1000) by (split; [reflexivity|]; split; [reflexivity|]; split; [reflexivity|]; intros v H; unfold fuSmall in H; unfold fuBig; now rewrite H).
  split; [|split]; (split; [exact Tol|]); cln.
Qed.
Definition fuBd (de : nat) : nat := match de with O => 3 | _ => 1 end.
Ltac one de H := cbn in H; assert (de = 1%nat) by lia; subst de.
Ltac dirs di H := cbn in H; destruct di as [|[|di]]; [| |lia].
Example fu_blocks : blocks algZ exCfg exStiffT fuBd /\ (forall de, (1 <= de < cTi exCfg)%nat -> fuBd de = nModes TRIA3 (2 - de)) /\ fullCols algZ exCfg exStiffT fuBd.
Proof.
  split; [split; [reflexivity|]|split].
  - intros de Hde. one de Hde. split; [cbn; lia|]. split; [lia|]. split.
    + intros di l y Hdi Hl Hy. cbn in Hl, Hy. dirs di Hdi; destruct l as [|[|[|l]]]; try lia; destruct y as [|[|[|y]]]; try lia; reflexivity.
    + split; [exists 0%nat, 1%nat; split; [cbn; lia|]; split; [cbn; lia|discriminate]|]. intros di Hdi. dirs di Hdi; exists 1%nat, 0%nat; (split; [cbn; lia|]); (split; [cbn; lia|discriminate]).
  - intros de Hde. one de Hde. reflexivity.
  - intros de di y Hde Hdi Hy. one de Hde. cbn in Hy. assert (y = 0%nat) by lia. subst y. dirs di Hdi; exists 1%nat; (split; [cbn; lia|discriminate]).
Qed.
Example fu_rows : rowBlock algZ exCfg exStiff 1 /\ nModes TRIA3 (2 - 1) = 1%nat /\ colOrder algZ exCfg exStiff.
Proof.
  split; [split; [cbn; lia|]; split; [|split]|split; [reflexivity|]].
  - intros di l y Hdi Hl Hy. cbn in Hl, Hy. dirs di Hdi; destruct l as [|[|[|l]]]; try lia; destruct y as [|[|[|y]]]; try lia; reflexivity.
  - exists 0%nat, 1%nat. split; [cbn; lia|]. split; [cbn; lia|discriminate].
  - intros di Hdi. dirs di Hdi; exists 0%nat, 1%nat; (split; [cbn; lia|]); (split; [cbn; lia|discriminate]).
  - intros di y Hdi Hy H d' l Hd Hl. dirs di Hdi; [lia|]. assert (d' = 0%nat) by lia. subst d'. cbn in Hy, Hl.
    destruct y as [|[|[|y]]]; try lia; try (specialize (H 0%nat ltac:(cbn; lia)); discriminate). destruct l as [|[|[|l]]]; try lia; reflexivity.
Qed.
Example fu_fluxCols : fluxCols algZ exCfg exLN.
Proof.
  intros i y Hi Hy. exists 2%nat. split; [cbn; lia|]. cbn in Hi, Hy. destruct y as [|[|y]]; try lia; do 6 (destruct i as [|i]; [discriminate|]); lia.
Qed.
(** material and inverse Jacobian *)
Definition fuJ : list (list Z) := [[1; 2]; [3; 5]].
Definition fuStarE := starE2 0 1 Z.add Z.sub Z.mul Z.div Z.opp 1 2 3 fuJ.
Definition fuStarEv := starE2sp 0 1 Z.add Z.sub Z.mul Z.div Z.opp 1 2 3 fuJ.
Definition fuStarA := starA2 0 1 Z.add Z.mul Z.div Z.opp fuJ.
Definition fuStarAv := starA2sp 0 1 Z.add Z.mul Z.div Z.opp fuJ.
Definition fuSrcA := [srcDense 0 2 3 5 7].
Definition fuSrcAv := map (srcSp 0 2) fuSrcA.
Definition fuP : pats := {| pE := ([0; 2; 4; 6; 8; 10], idxE2); pA := ([0; 1; 2; 4], idxA2); pS := ([0; 2; 4; 5], [0; 1; 0; 1; 2]); pFE := fullPat 5 5; pFA := fullPat 3 5 |}%nat.
Lemma okInj {X} (a b : X) : Ok a = Ok b -> a = b.
Proof. congruence. Qed.
Example fu_data : fakePats 2 = Ok fuP /\ sparseData algZ exCfg fuP fuStarE fuStarA fuSrcA fuStarEv fuStarAv fuSrcAv /\ matrices exCfg exStiffT fuStarE fuStarA fuSrcA exRfs /\
  matrices exCfg exStiff fuStarE fuStarA fuSrcA exRfs.
Proof.
  assert (E : fakePats 2 = Ok fuP) by apply pats2. split; [exact E|]. split.
  - destruct (C82_sparse_data algZ exCfg 1 2 3 fuJ [(3, 5, 7)] eq_refl) as (P & EP & D). change (nDis (cEl exCfg)) with 2%nat in EP. rewrite E in EP. apply okInj in EP. subst P. exact D.
  - split; (split; [szd|]; split; [szd|]; split; [intros _; szd|]; split; [szd|reflexivity]).
Qed.
(** the kernels change the data *)
Definition fuTime := ks <- genTimeF 0 fuBig fuSmall fuIsMax 1000 false true exCfg fuP exStiffT;; st <- storeStiffTF 0 Z.opp fuBig fuSmall fuIsMax 1000 false true exCfg exStiffT;;
  ckFused 0 Z.add Z.mul Z.div Z.of_nat fuLib exCfg ks st exRfs 2 fuStarEv fuStarAv fuSrcAv exDofsE exDofsA (zs 18) (zs 30) [zs 30; zs 30] [[zs 18; zs 18]] (zs 30) [zs 18].
Example fu_time : exists sca scr e0 e1 a0 a1 tE tA, fuTime = Ok (sca, scr, [e0; e1], [[a0; a1]], tE, [tA]) /\
  e0 = exDofsE /\ [a0] = exDofsA /\ hd 0 e1 <> 0 /\ hd 0 a1 <> 0 /\ hd 0 tE <> 2 * hd 0 e0 /\ hd 0 tA <> 2 * hd 0 a0.
Proof. vm_compute. do 8 eexists. split; [reflexivity|]. repeat split; discriminate. Qed.
Definition fuVol := ks <- genVolF 0 fuBig fuSmall fuIsMax 1000 false true exCfg fuP exStiff;; st <- storeStiffF 0 fuBig fuSmall fuIsMax 1000 false true exCfg exStiff;;
  volFused 0 Z.add Z.sub Z.mul fuLib exCfg ks st exRfs fuStarEv fuStarAv fuSrcAv exDofsE exDofsA (zs 18) exDofsE exDofsA (zs 30).
Example fu_volume : exists e a s, fuVol = Ok (e, [a], s) /\ e <> exDofsE /\ [a] <> exDofsA.
Proof. vm_compute. do 3 eexists. split; [reflexivity|]. split; discriminate. Qed.
Definition fuSurf : res bool :=
  ks <- genSurfF 0 fuBig fuSmall fuIsMax 1000 false exCfg fuP exLN exT;; '(ln, tr) <- storeFluxF 0 fuBig fuSmall fuIsMax 1000 false exCfg exLN exT;;
  '(e, a, _, _) <- surfLocalFused 0 Z.add Z.mul fuLib exCfg ks ln tr exRfs (repeat (map Z.of_nat (seq 1 25)) 3) (repeat (map Z.of_nat (seq 1 15)) 3) exDofsE (zs 18) exDofsE exDofsA (zs 20) (zs 20);;
  o <- neighFluxIntFused fuLib exCfg ks ln 2 (Some 0%nat) 1 exDofsE (zs 20);;
  '(e1, u1, _, _) <- surfNeighFused fuLib exCfg ks ln tr 2 (Some 0%nat) 1 (map Z.of_nat (seq 1 25)) (map Z.of_nat (seq 1 15)) exDofsE None exDofsE (zs 18) (zs 20) (zs 20);;
  '(e2, u2, _, _) <- surfNeighFused fuLib exCfg ks ln tr 2 (Some 0%nat) 1 (map Z.of_nat (seq 1 25)) (map Z.of_nat (seq 1 15)) [] (Some o) exDofsE (zs 18) (zs 20) (zs 20);;
  Ok (negb (eqz e exDofsE) && negb (eqz (nth 0 a []) (nth 0 exDofsA [])) && negb (eqz o (zs 20)) && eqz e1 e2 && eqz u1 u2 && negb (eqz e1 exDofsE) && negb (eqz u1 (zs 18))).
Example fu_surface : fuSurf = Ok true.
Proof. vm_compute. reflexivity. Qed.

(** *** [colOrder] cannot be dropped: with quadrilaterals of second order and attenuation, the scratch memory keeps the values of the first direction in the columns
    which have no entries in the second one.  Basis 1, x, y, xy. *)
Definition fqCfg : conf := Build_conf QUAD4R 2 2 1 1.
Definition fqStiff : list (list Z) := [[0;2;0;0; 0;0;0;0; 0;0;0;2; 0;0;0;0]; [0;0;2;0; 0;0;0;2; 0;0;0;0; 0;0;0;0]].
Theorem C82_volume_quads_refuted : exists cf stiff br starE starA srcA starEv starAv srcAv rfs tE tA junk dofsE dofsA scr L ks ksF st,
  packedCsr algZ (xCsr L) /\ packedCsc algZ (xCsc L) /\ tolerances algZ fuBig fuSmall fuIsMax 1000 stiff /\ fakePats (nDis (cEl cf)) = Ok fuP /\ sparseData algZ cf fuP starE starA srcA starEv starAv srcAv /\
  rowBlock algZ cf stiff br /\ matrices cf stiff starE starA srcA rfs /\ testsLow algZ cf stiff /\
  genVol 0 1 cf = Ok ks /\ genVolF 0 fuBig fuSmall fuIsMax 1000 false false cf fuP stiff = Ok ksF /\ storeStiffF 0 fuBig fuSmall fuIsMax 1000 false false cf stiff = Ok st /\
  exists e a s e' a' s', volInt 0 Z.add Z.sub Z.mul (Z.eqb 0) cf ks stiff rfs starE starA srcA tE tA junk dofsE dofsA scr = Ok (e, a, s) /\
    volFused 0 Z.add Z.sub Z.mul L cf ksF st rfs starEv starAv srcAv tE tA junk dofsE dofsA scr = Ok (e', a', s') /\ e <> e' /\ a <> a'.
Proof.
  destruct (genVol 0 1 fqCfg) as [ks|] eqn:E1; [|vm_compute in E1; discriminate].
  destruct (genVolF 0 fuBig fuSmall fuIsMax 1000 false false fqCfg fuP fqStiff) as [ksF|] eqn:E2; [|vm_compute in E2; discriminate].
  destruct (storeStiffF 0 fuBig fuSmall fuIsMax 1000 false false fqCfg fqStiff) as [st|] eqn:E3; [|vm_compute in E3; discriminate].
  exists fqCfg, fqStiff, 3%nat, fuStarE, fuStarA, fuSrcA, fuStarEv, fuStarAv, fuSrcAv, exRfs, (sgArr 20), [sgArr 12], (zs 12), (sgArr 20), [sgArr 12], (zs 20), fuLib, ks, ksF, st.
  split; [apply fu_lib|]. split; [apply fu_lib|]. split; [split; [apply fu_tolerances|cln]|]. split; [apply fu_data|]. split; [apply fu_data|].
  split; [|split; [|split; [|split; [exact E1|split; [exact E2|split; [exact E3|]]]]]].
  - split; [cbn; lia|]. split; [|split].
    + intros di l y Hdi Hl Hy. cbn in Hl, Hy. dirs di Hdi; destruct l as [|[|[|[|l]]]]; try lia; destruct y as [|[|[|[|y]]]]; try lia; reflexivity.
    + exists 0%nat, 3%nat. split; [cbn; lia|]. split; [cbn; lia|discriminate].
    + intros di Hdi. dirs di Hdi; [exists 0%nat, 1%nat|exists 0%nat, 2%nat]; (split; [cbn; lia|]); (split; [cbn; lia|discriminate]).
  - split; [szd|]. split; [szd|]. split; [intros _; szd|]. split; [szd|reflexivity].
  - intros di l y Hdi Hl Hy. cbn in Hl. lia.
  - vm_compute in E1, E2, E3. injection E1 as <-. injection E2 as <-. injection E3 as <-. vm_compute. do 6 eexists. split; [reflexivity|]. split; [reflexivity|]. split; discriminate.
Qed.
Print Assumptions C82_volume_quads_refuted.
