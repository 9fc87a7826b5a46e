(** Kernels of the ADER-DG solver: time prediction, volume and surface integration: properties C74, C75 and C76. *)
From Coq Require Import Ring ZArith.
From Verif Require Import Util MeshConn MatMul Props_Mat Ader AderSpec AderV AderCk AderInt.
Local Open Scope nat_scope.

Section Props.
Context {T : Type}.
Variables (A : alg T) (cf : conf).
Local Notation zero := (aZero A).
Local Notation one := (aOne A).
Local Notation add := (aAdd A).
Local Notation sub := (aSub A).
Local Notation mul := (aMul A).
Local Notation div := (aDiv A).
Local Notation opp := (aOpp A).
Local Notation ofN := (aOfN A).
Local Notation isz := (aIsz A).
Add Ring TR4 : (aRT A).
Local Notation nDi := (nDis (cEl cf)).
Local Notation nMd := (nModes (cEl cf) (cSp cf)).
Local Notation nMdFa := (nModesFa (cEl cf) (cSp cf)).
Local Notation nFa := (nElFas (cEl cf)).
Local Notation ck_ := (nModesCk (cEl cf) (cSp cf)).
Local Notation nE := (nQtsE (cEl cf)).
Local Notation nM := (nQtsM (cEl cf)).
Local Notation nCr := (cCrs cf).
Local Notation nRm := (cRms cf).
Local Notation state := (@state T).
Local Opaque nModes nModesCk nQtsE nQtsM nDis nModesFa nElFas.

(** derivative of the predictor: minus the transposed stiffness matrices *)
Definition predK (stiffT : list (list T)) (di l y : nat) : T := opp (ent A nMd (nth di stiffT []) l y).
(** derivative of the volume integration: the stiffness matrices *)
Definition volK (stiff : list (list T)) (di l y : nat) : T := ent A nMd (nth di stiff []) l y.

(** ** C74: the Cauchy-Kowalevski procedure *)
Theorem C74_derivatives stiffT starE starA srcA rfs dT dofsE dofsA junk scr dE dA tE tA (q : nat -> state) :
  1 <= cTi cf -> matrices cf stiffT starE starA srcA rfs -> lowers A cf (predK stiffT) -> ckArrays cf junk scr dE dA tE tA -> holds A cf dofsE dofsA q ->
  exists ks sca scr' dE' dA' tE' tA', genTime zero one cf = Ok ks /\
    ckVanilla zero add mul div ofN isz cf ks (storeStiffT opp cf stiffT) rfs dT starE starA srcA dofsE dofsA junk scr dE dA tE tA = Ok (sca, scr', dE', dA', tE', tA') /\
    ckArrays cf junk scr' dE' dA' tE' tA' /\
    (forall d, d < cTi cf -> holds A cf (nth d dE' []) (map (fun a => nth d a []) dA') (fun z => powOf A cf add (predK stiffT) starE starA srcA rfs d (q z))) /\
    holds A cf tE' tA' (fun z => comb A (cTi cf) (scal A dT) (fun d => powOf A cf add (predK stiffT) starE starA srcA rfs d (q z))).
Proof.
  intros HT (H1 & H2 & H3 & H4 & H5) Low (J1 & J2 & J3 & J4 & J5 & J6) (Q1 & Q2 & Q3).
  destruct (genTime_ok A cf) as (ks & Gen & _).
  destruct (ckVanilla_ok A cf ks stiffT rfs dT starE starA srcA Gen H1 H2 H3 H4 H5 Low q dofsE dofsA junk scr dE dA tE tA HT J1 J2 J3 J4 J5 J6 Q2 Q1 Q3)
    as ((((((sca & scr') & dE') & dA') & tE') & tA') & E & (I1 & I2 & I3 & I4 & I5 & I6 & I7 & I8 & I9)).
  exists ks, sca, scr', dE', dA', tE', tA'. split; [exact Gen|]. split; [exact E|]. split; [|split].
  - split; [auto|]. split; [auto|]. split; [exact I3|]. split; [exact I4|]. split; [apply I7|exact I8].
  - intros d Hd. split; [exact (I5 d Hd)|]. split; [rewrite map_length; apply I4|]. intros rm Hrm.
    rewrite (nth_indep _ [] (nth d [] [])) by (rewrite map_length; destruct I4; lia). rewrite (map_nth (fun a => nth d a [])). exact (I6 rm d Hrm Hd).
  - split; [exact I7|]. split; [apply I8|exact I9].
Qed.

(** the same configuration with one simulation *)
Definition single : conf := Build_conf (cEl cf) (cSp cf) (cTi cf) 1 (cRms cf).
(** simulation z of the fused array is the array of the single simulation *)
Definition sameSim (z nq : nat) (fused one_ : list T) : Prop :=
  forall x y, x < nq -> y < nMd -> nth ((x * nMd + y) * nCr + z) fused zero = nth (x * nMd + y) one_ zero.

Lemma rep_sameSim z nq l l1 f f1 : z < nCr -> rep A cf nq nMd l f -> rep A single nq nMd l1 f1 -> (forall x y, f z x y = f1 0 x y) -> sameSim z nq l l1.
Proof.
  intros Hz (_ & V) (_ & V1) E x y Hx Hy. specialize (V z x y Hz Hx Hy). specialize (V1 0 x y ltac:(cbn; lia) Hx Hy). unfold pos in V, V1. cbn [cCrs single] in V1.
  replace (x * nMd + y) with ((x * nMd + y) * 1 + 0) at 2 by lia.
  replace ((x * nMd + y) * nCr + z) with (x * (nMd * nCr) + y * nCr + z) by ring.
  replace ((x * nMd + y) * 1 + 0) with (x * (nMd * 1) + y * 1 + 0) by ring. etransitivity; [|etransitivity; [apply E|]]; [rewrite <- V|rewrite <- V1]; f_equal; ring.
Qed.

(** fused simulations do not influence each other: every one has the result of its own run *)
Theorem C74_fused stiffT starE starA srcA rfs dT dofsE dofsA junk scr dE dA tE tA dofsE1 dofsA1 junk1 scr1 dE1 dA1 tE1 tA1 (q : nat -> state) z ks ks1 :
  1 <= cTi cf -> matrices cf stiffT starE starA srcA rfs -> lowers A cf (predK stiffT) -> z < nCr ->
  ckArrays cf junk scr dE dA tE tA -> holds A cf dofsE dofsA q -> ckArrays single junk1 scr1 dE1 dA1 tE1 tA1 -> holds A single dofsE1 dofsA1 (fun _ => q z) ->
  genTime zero one cf = Ok ks -> genTime zero one single = Ok ks1 ->
  exists sca scr' dE' dA' tE' tA' sca1' scr1' dE1' dA1' tE1' tA1',
    ckVanilla zero add mul div ofN isz cf ks (storeStiffT opp cf stiffT) rfs dT starE starA srcA dofsE dofsA junk scr dE dA tE tA = Ok (sca, scr', dE', dA', tE', tA') /\
    ckVanilla zero add mul div ofN isz single ks1 (storeStiffT opp single stiffT) rfs dT starE starA srcA dofsE1 dofsA1 junk1 scr1 dE1 dA1 tE1 tA1 = Ok (sca1', scr1', dE1', dA1', tE1', tA1') /\
    (forall d, d < cTi cf -> sameSim z nE (nth d dE' []) (nth d dE1' [])) /\
    (forall d rm, d < cTi cf -> rm < nRm -> sameSim z nM (nth d (nth rm dA' []) []) (nth d (nth rm dA1' []) [])) /\
    sameSim z nE tE' tE1' /\ (forall rm, rm < nRm -> sameSim z nM (nth rm tA' []) (nth rm tA1' [])).
Proof.
  intros HT HM Low Hz CA HO CA1 HO1 G G1.
  destruct (C74_derivatives stiffT starE starA srcA rfs dT dofsE dofsA junk scr dE dA tE tA q HT HM Low CA HO) as (ks' & sca & scr' & dE' & dA' & tE' & tA' & G' & E & CA' & D & I).
  rewrite G in G'. injection G' as <-.
  exists sca, scr', dE', dA', tE', tA'.
  cut (exists sca1 scr1' dE1' dA1' tE1' tA1',
    ckVanilla zero add mul div ofN isz single ks1 (storeStiffT opp single stiffT) rfs dT starE starA srcA dofsE1 dofsA1 junk1 scr1 dE1 dA1 tE1 tA1 = Ok (sca1, scr1', dE1', dA1', tE1', tA1') /\
    ckArrays single junk1 scr1' dE1' dA1' tE1' tA1' /\
    (forall d, d < cTi cf -> holds A single (nth d dE1' []) (map (fun a => nth d a []) dA1') (fun _ => powOf A cf add (predK stiffT) starE starA srcA rfs d (q z))) /\
    holds A single tE1' tA1' (fun _ => comb A (cTi cf) (scal A dT) (fun d => powOf A cf add (predK stiffT) starE starA srcA rfs d (q z)))).
  - intros (sca1 & scr1' & dE1' & dA1' & tE1' & tA1' & E1 & CA1' & D1 & I1). exists sca1, scr1', dE1', dA1', tE1', tA1'. split; [exact E|]. split; [exact E1|].
    assert (LA : length dA' = nRm) by apply CA'. assert (LA1 : length dA1' = nRm) by apply CA1'. split; [|split; [|split]].
    + intros d Hd. eapply rep_sameSim; [exact Hz|apply (D d Hd)|apply (D1 d Hd)|reflexivity].
    + intros d rm Hd Hrm. eapply rep_sameSim; [exact Hz| | |].
      * replace (nth d (nth rm dA' []) []) with (nth rm (map (fun a => nth d a []) dA') []); [exact (proj2 (proj2 (D d Hd)) rm Hrm)|].
        rewrite (nth_indep _ [] (nth d [] [])) by (rewrite map_length; lia). now rewrite (map_nth (fun a => nth d a [])).
      * replace (nth d (nth rm dA1' []) []) with (nth rm (map (fun a => nth d a []) dA1') []); [exact (proj2 (proj2 (D1 d Hd)) rm Hrm)|].
        rewrite (nth_indep _ [] (nth d [] [])) by (rewrite map_length; lia). now rewrite (map_nth (fun a => nth d a [])).
      * reflexivity.
    + eapply rep_sameSim; [exact Hz|apply I|apply I1|reflexivity].
    + intros rm Hrm. eapply rep_sameSim; [exact Hz|exact (proj2 (proj2 I) rm Hrm)|exact (proj2 (proj2 I1) rm Hrm)|reflexivity].
  - clear - HT HM Low CA1 HO1 G1. unfold predK in *.
    destruct (genTime_ok A single) as (ks & Gen & _). rewrite G1 in Gen. injection Gen as <-.
    destruct HM as (H1 & H2 & H3 & H4 & H5), CA1 as (J1 & J2 & J3 & J4 & J5 & J6), HO1 as (Q1 & Q2 & Q3).
    destruct (ckVanilla_ok A single ks1 stiffT rfs dT starE starA srcA G1 H1 H2 H3 H4 H5 Low (fun _ => q z) dofsE1 dofsA1 junk1 scr1 dE1 dA1 tE1 tA1 HT J1 J2 J3 J4 J5 J6 Q2 Q1 Q3)
      as ((((((sca & scr') & dE') & dA') & tE') & tA') & E & (I1 & I2 & I3 & I4 & I5 & I6 & I7 & I8 & I9)).
    exists sca, scr', dE', dA', tE', tA'. split; [exact E|]. split; [|split].
    + split; [auto|]. split; [auto|]. split; [exact I3|]. split; [exact I4|]. split; [apply I7|exact I8].
    + intros d Hd. split; [exact (I5 d Hd)|]. split; [rewrite map_length; apply I4|]. intros rm Hrm.
      rewrite (nth_indep _ [] (nth d [] [])) by (rewrite map_length; destruct I4 as (L & _); rewrite L; exact Hrm). rewrite (map_nth (fun a => nth d a [])). exact (I6 rm d Hrm Hd).
    + split; [exact I7|]. split; [apply I8|exact I9].
Qed.

(** ** C75: evaluation and integration of the prediction *)
(** after the Cauchy-Kowalevski procedure, [integrate] over any time dt gives the Taylor polynomial's integral over [0, dt];
    for dt = dT this is the time integral, which the procedure returns *)
Theorem C75_integrate stiffT starE starA srcA rfs dE dt o (q : nat -> state) :
  1 <= cTi cf -> lowers A cf (predK stiffT) -> sized (cTi cf) (nE * nMd * nCr) dE -> length o = nE * nMd * nCr ->
  (forall d, d < cTi cf -> rep A cf nE nMd (nth d dE []) (fun z => fst (powOf A cf add (predK stiffT) starE starA srcA rfs d (q z)))) ->
  exists o', integrate add mul div ofN cf dt dE o = Ok o' /\
    rep A cf nE nMd o' (fun z => fst (comb A (cTi cf) (scal A dt) (fun d => powOf A cf add (predK stiffT) starE starA srcA rfs d (q z)))).
Proof.
  intros HT Low Sd Lo D. destruct (integrate_ok A cf dt dE o _ HT Sd D Lo) as (o' & E & R). exists o'. split; [exact E|].
  eapply rep_ext; [exact R|]. intros z x y Hz Hx Hy. cbn [comb fst]. apply sum_ext. intros d Hd.
  destruct (Nat.eqb_spec nRm 0) as [R0|R0].
  - destruct (Nat.ltb_spec y (ck_ d)) as [C|C]; [reflexivity|]. symmetry.
    assert (Z : fst (powOf A cf add (predK stiffT) starE starA srcA rfs d (q z)) x y = zero) by (apply (Ed_zero A cf stiffT rfs starE starA srcA Low q); auto). rewrite Z. ring.
  - now rewrite (proj2 (Nat.ltb_lt _ _) Hy).
Qed.

(** without relaxation mechanisms, the evaluation is the Taylor polynomial at the requested points *)
Theorem C75_eval stiffT starE starA srcA rfs dE pts pre (q : nat -> state) :
  1 <= cTi cf -> nRm = 0 -> lowers A cf (predK stiffT) -> sized (cTi cf) (nE * nMd * nCr) dE -> sized (length pts) (nE * nMd * nCr) pre ->
  (forall d, d < cTi cf -> rep A cf nE nMd (nth d dE []) (fun z => fst (powOf A cf add (predK stiffT) starE starA srcA rfs d (q z)))) ->
  exists pre', evalPred one add mul div ofN cf pts dE pre = Ok pre' /\ length pre' = length pts /\
    forall pt, pt < length pts -> rep A cf nE nMd (nth pt pre' []) (fun z => fst (comb A (cTi cf) (escal A (nth pt pts zero)) (fun d => powOf A cf add (predK stiffT) starE starA srcA rfs d (q z)))).
Proof.
  intros HT R0 Low Sd Sp D. destruct (evalPred_ok A cf pts dE pre _ HT Sd D Sp) as (pre' & E & (L & _) & R). exists pre'. split; [exact E|]. split; [exact L|]. intros pt Hpt.
  eapply rep_ext; [exact (R pt Hpt)|]. intros z x y Hz Hx Hy. cbn [comb fst]. apply sum_ext. intros d Hd.
  destruct (Nat.ltb_spec y (ck_ d)) as [C|C]; [reflexivity|]. symmetry.
  assert (Z : fst (powOf A cf add (predK stiffT) starE starA srcA rfs d (q z)) x y = zero) by (apply (Ed_zero A cf stiffT rfs starE starA srcA Low q); auto). rewrite Z. ring.
Qed.

(** ** C76: volume and surface integration *)
(** the derivative of the first CK(1) modes is used only *)
Definition testsLow (stiff : list (list T)) : Prop := forall di l y, di < nDi -> ck_ 1 <= l < nMd -> y < nMd -> volK stiff di l y = zero.

Theorem C76_volume stiff starE starA srcA rfs tE tA junk dofsE dofsA scr (t q : nat -> state) :
  matrices cf stiff starE starA srcA rfs -> testsLow stiff -> length junk = nM * nMd * nCr -> length scr = nE * nMd * nCr -> holds A cf tE tA t -> holds A cf dofsE dofsA q ->
  exists ks dofsE' dofsA' scr', genVol zero one cf = Ok ks /\
    volInt zero add sub mul isz cf ks stiff rfs starE starA srcA tE tA junk dofsE dofsA scr = Ok (dofsE', dofsA', scr') /\ length scr' = nE * nMd * nCr /\
    holds A cf dofsE' dofsA' (fun z => plus A (q z) (opOf A cf sub (volK stiff) starE starA srcA rfs (t z))).
Proof.
  intros (H1 & H2 & H3 & H4 & H5) Low Lj Ls (T1 & T2 & T3) (Q1 & Q2 & Q3). destruct (genVol_ok A cf) as (ks & Gen & _).
  destruct (volInt_ok A cf rfs starE starA srcA stiff H1 H2 H3 H4 H5 Low ks tE tA junk dofsE dofsA scr t (fun z => fst (q z)) (fun rm z => snd (q z) rm) Gen Lj Ls T1 T2 T3 Q1 Q2 Q3)
    as (dofsE' & dofsA' & scr' & E & L & RE & LA & RA).
  exists ks, dofsE', dofsA', scr'. split; [exact Gen|]. split; [exact E|]. split; [exact L|]. split; [exact RE|]. split; [exact LA|exact RA].
Qed.

(** flux matrices: own faces, faces of the neighbours, integration against the basis *)
Definition fluxMatrices (fIntLN fIntT : list (list T)) : Prop := sized (nFa + nFluxN (cEl cf)) (nMd * nMdFa) fIntLN /\ sized nFa (nMdFa * nMd) fIntT.

(** the surface terms of the faces in [fas], with the data [t fa] and the matrix [F fa] of the face *)
Definition surfState (fsE fsA : nat -> list T) (F Ft : nat -> list T) (rfs : list T) (t : nat -> nat -> nat -> T) (nf : nat) : state :=
  (fun x y => sum A nf (fun fa => surf A cf (fsE fa) (F fa) (Ft fa) (t fa) x y),
   fun rm x y => mul (nth rm rfs zero) (sum A nf (fun fa => surf A cf (fsA fa) (F fa) (Ft fa) (t fa) x y))).

Theorem C76_surface_local fIntLN fIntT rfs fsE fsA tE junk dofsE dofsA scr0 scr1 (t : nat -> nat -> nat -> T) (q : nat -> state) :
  fluxMatrices fIntLN fIntT -> length rfs = nRm -> sized nFa (nE * nE) fsE -> (0 < nRm -> sized nFa (nM * nE) fsA) ->
  length junk = nM * nMd * nCr -> length scr0 = nE * nMdFa * nCr -> length scr1 = nE * nMdFa * nCr ->
  rep A cf nE nMd tE t -> holds A cf dofsE dofsA q ->
  exists ks dofsE' dofsA' scr0' scr1', genSurf zero one cf = Ok ks /\
    surfLocal zero add mul isz cf ks fIntLN fIntT rfs fsE fsA tE junk dofsE dofsA scr0 scr1 = Ok (dofsE', dofsA', scr0', scr1') /\
    length scr0' = nE * nMdFa * nCr /\ length scr1' = nE * nMdFa * nCr /\
    holds A cf dofsE' dofsA' (fun z => plus A (q z) (surfState (fun fa => nth fa fsE []) (fun fa => nth fa fsA []) (fun fa => nth fa fIntLN []) (fun fa => nth fa fIntT []) rfs (fun _ => t z) nFa)).
Proof.
  intros (F1 & F2) Lr S1 S2 Lj L0 L1 Rt (Q1 & Q2 & Q3). destruct (genSurf_ok A cf) as (ks & Gen & _).
  destruct (surfLocal_ok A cf rfs ks fIntLN fIntT Lr Gen F2 F1 fsE fsA tE junk dofsE dofsA scr0 scr1 t (fun z => fst (q z)) (fun rm z => snd (q z) rm) S1 S2 Lj L0 L1 Rt Q1 Q2 Q3)
    as (dofsE' & dofsA' & scr0' & scr1' & E & L0' & L1' & RE & LA & RA).
  exists ks, dofsE', dofsA', scr0', scr1'. split; [exact Gen|]. split; [exact E|]. split; [exact L0'|]. split; [exact L1'|]. split; [exact RE|]. split; [exact LA|exact RA].
Qed.

(** id of the matrix that projects the neighbour's data to face fa: the neighbouring matrix of the relation of vertices and of the
    neighbour's face; the matrix of the own face, if the data is the element's own *)
Definition matrixOf (fa : nat) (vId : option nat) (fId : nat) : nat := match vId with Some v => nFa + (v * nFa + fId) | None => fa end.

(** contribution of the neighbour at face fa; the data may be projected to the face already ([pre]), as done for other partitions *)
Theorem C76_surface_neigh fIntLN fIntT fa vId fId fsE fsA tE pre dofsE upA scr0 scr1 (t : nat -> nat -> nat -> T) fE fU :
  fluxMatrices fIntLN fIntT -> fa < nFa -> matrixOf fa vId fId < nFa + nFluxN (cEl cf) ->
  length fsE = nE * nE -> (0 < nRm -> length fsA = nM * nE) -> length scr0 = nE * nMdFa * nCr -> length scr1 = nE * nMdFa * nCr ->
  match pre with None => rep A cf nE nMd tE t | Some p => rep A cf nE nMdFa p (fun z => faceInt A cf (nth (matrixOf fa vId fId) fIntLN []) (t z)) end ->
  rep A cf nE nMd dofsE fE -> rep A cf nM nMd upA fU ->
  exists ks dofsE' upA' scr0' scr1', genSurf zero one cf = Ok ks /\
    surfNeigh zero add mul isz cf ks fIntLN fIntT fa vId fId fsE fsA tE pre dofsE upA scr0 scr1 = Ok (dofsE', upA', scr0', scr1') /\
    length scr0' = nE * nMdFa * nCr /\ length scr1' = nE * nMdFa * nCr /\
    rep A cf nE nMd dofsE' (fun z x y => add (fE z x y) (surf A cf fsE (nth (matrixOf fa vId fId) fIntLN []) (nth fa fIntT []) (t z) x y)) /\
    rep A cf nM nMd upA' (fun z x y => if 0 <? nRm then add (fU z x y) (surf A cf fsA (nth (matrixOf fa vId fId) fIntLN []) (nth fa fIntT []) (t z) x y) else fU z x y).
Proof.
  intros (F1 & F2) Hfa Hid S1 S2 L0 L1 Pre Rd Ru. destruct (genSurf_ok A cf) as (ks & Gen & _).
  destruct (surfNeigh_ok A cf (repeat zero nRm) ks fIntLN fIntT (repeat_length _ _) Gen F2 F1 fa vId fId fsE fsA tE pre dofsE upA scr0 scr1 t fE fU Hfa Hid S1 S2 L0 L1 Pre Rd Ru)
    as (d' & u' & scr0' & scr1' & E & L0' & L1' & RE & RU).
  exists ks, d', u', scr0', scr1'. split; [exact Gen|]. split; [exact E|]. split; [exact L0'|]. split; [exact L1'|]. split; [exact RE|exact RU].
Qed.

(** what is sent to another partition is the projection, which the receiving element would compute itself *)
Theorem C76_sent_data fIntLN fIntT fa vId fId tE o (t : nat -> nat -> nat -> T) :
  fluxMatrices fIntLN fIntT -> matrixOf fa vId fId < nFa + nFluxN (cEl cf) -> rep A cf nE nMd tE t -> length o = nE * nMdFa * nCr ->
  exists ks o', genSurf zero one cf = Ok ks /\ neighFluxInt zero add mul isz cf ks fIntLN fa vId fId tE o = Ok o' /\
    rep A cf nE nMdFa o' (fun z => faceInt A cf (nth (matrixOf fa vId fId) fIntLN []) (t z)).
Proof.
  intros (F1 & F2) Hid Rt Lo. destruct (genSurf_ok A cf) as (ks & Gen & _).
  destruct (neighFluxInt_ok A cf (repeat zero nRm) ks fIntLN (repeat_length _ _) Gen F1 fa vId fId tE t o Hid Rt Lo) as (o' & E & R). exists ks, o'. split; [exact Gen|]. split; [exact E|exact R].
Qed.
End Props.

Print Assumptions C74_derivatives.
Print Assumptions C74_fused.
Print Assumptions C75_integrate.
Print Assumptions C75_eval.
Print Assumptions C76_volume.
Print Assumptions C76_surface_local.
Print Assumptions C76_surface_neigh.
Print Assumptions C76_sent_data.

(** ** Concrete cases: triangles of second order, exact integers *)
Local Open Scope Z_scope.
Definition algZ : alg Z := {| aZero := 0; aOne := 1; aAdd := Z.add; aSub := Z.sub; aMul := Z.mul; aDiv := Z.div; aOpp := Z.opp; aOfN := Z.of_nat; aIsz := Z.eqb 0;
  aRT := InitialRing.Zth; aIz := eq_refl; aIo := eq_refl |}.
(** two fused simulations, one relaxation mechanism *)
Definition exCfg : conf := Build_conf TRIA3 2 2 2 1.
(** derivatives of the basis 1, 2x+y-1, 3y-1: coefficients of the constant mode *)
Definition exStiffT : list (list Z) := [[0;0;0; 2;0;0; 0;0;0]; [0;0;0; 1;0;0; 3;0;0]].
Definition exStiff : list (list Z) := [[0;2;0; 0;0;0; 0;0;0]; [0;1;3; 0;0;0; 0;0;0]].
Definition exStarE : list (list Z) := [map Z.of_nat (seq 1 25); map Z.of_nat (seq 7 25)].
Definition exStarA : list (list Z) := [[1;2;3;4;5;6]; [2;3;5;7;11;13]].
Definition exSrcA : list (list Z) := [map Z.of_nat (seq 1 9)].
Definition exRfs : list Z := [5].
Definition exQ (z : nat) : @state Z := (fun x y => Z.of_nat (1 + 100 * z + 10 * x + y), fun _ x y => Z.of_nat (3 + 50 * z + 7 * x + 2 * y)).
Definition exArr (nq : nat) (f : nat -> nat -> nat -> Z) : list Z := flat_map (fun x => flat_map (fun y => map (fun z => f z x y) (seq 0 2)) (seq 0 3)) (seq 0 nq).
Definition exDofsE := exArr 5 (fun z => fst (exQ z)).
Definition exDofsA := [exArr 3 (fun z => snd (exQ z) 0%nat)].

Lemma ex_rep (nq : nat) f : (nq = 5 \/ nq = 3)%nat -> rep algZ exCfg nq 3 (exArr nq f) f.
Proof.
  intros H. split; [destruct H as [-> | ->]; reflexivity|]. intros z x y Hz Hx Hy. cbn [cCrs exCfg] in *.
  destruct H as [-> | ->]; do 2 (destruct z as [|z]; [do 5 (destruct x as [|x]; [do 3 (destruct y as [|y]; [try reflexivity; lia|]); lia|]); lia|]); lia.
Qed.
Example ex_dofs : holds algZ exCfg exDofsE exDofsA exQ.
Proof.
  split; [apply ex_rep; auto|]. split; [reflexivity|]. intros rm Hrm. cbn in Hrm. destruct rm; [|lia]. apply (ex_rep 3 (fun z => snd (exQ z) 0%nat)). auto.
Qed.
Ltac szd := split; [reflexivity|let i := fresh in let Hi := fresh in intros i Hi; cbn in Hi; repeat (destruct i as [|i]; [reflexivity|]); lia].
Example ex_matrices : matrices exCfg exStiffT exStarE exStarA exSrcA exRfs.
Proof. split; [szd|]. split; [szd|]. split; [intros _; szd|]. split; [szd|reflexivity]. Qed.
Example ex_lowers : lowers algZ exCfg (predK algZ exCfg exStiffT).
Proof.
  intros de di l y Hde Hdi Hl Hy. cbn in Hde, Hdi. assert (de = 1%nat) by lia. subst de. cbn in Hl, Hy.
  destruct di as [|[|di]]; [| |lia]; do 3 (destruct l as [|l]; [destruct y as [|[|[|y]]]; try reflexivity; cbn in Hy; lia|]); cbn in Hl; lia.
Qed.
Definition zs n := repeat 77 n.
Example ex_arrays : ckArrays exCfg (zs 18) (zs 30) [zs 30; zs 30] [[zs 18; zs 18]] (zs 30) [zs 18].
Proof.
  split; [reflexivity|]. split; [reflexivity|]. split; [szd|]. split; [split; [reflexivity|]|split; [reflexivity|szd]].
  intros rm Hrm. cbn in Hrm. destruct rm; [|lia]. szd.
Qed.

Definition exRun := match genTime 0 1 exCfg with Ok ks =>
  ckVanilla 0 Z.add Z.mul Z.div Z.of_nat (Z.eqb 0) exCfg ks (storeStiffT Z.opp exCfg exStiffT) exRfs 2 exStarE exStarA exSrcA exDofsE exDofsA (zs 18) (zs 30) [zs 30; zs 30] [[zs 18; zs 18]] (zs 30) [zs 18]
  | Er e => Er e end.

(** the derivatives and the time integral of the run, for d = 1 and the time integral: all entries are those of the specification *)
Example ex_run_derivatives : exists sca scr dE dA tE tA, exRun = Ok (sca, scr, dE, dA, tE, tA) /\
  nth 1 dE [] = exArr 5 (fun z => fst (opOf algZ exCfg Z.add (predK algZ exCfg exStiffT) exStarE exStarA exSrcA exRfs (exQ z))) /\
  nth 1 dE [] <> zs 30 /\ tE = exArr 5 (fun z => fst (comb algZ 2 (scal algZ 2) (fun d => powOf algZ exCfg Z.add (predK algZ exCfg exStiffT) exStarE exStarA exSrcA exRfs d (exQ z)))).
Proof. vm_compute. do 6 eexists. split; [reflexivity|]. split; [reflexivity|]. split; [discriminate|reflexivity]. Qed.

(** the full property, that the prediction belongs to the equations, which the volume integration discretises (with the relaxation
    -omega theta of the memory variables), does not hold: the predictor's relaxation term has the other sign *)
Theorem C74_relaxation_sign_refuted : exists cf stiffT starE starA srcA rfs dT dofsE dofsA junk scr dE dA tE tA q ks sca' scr' dE' dA' tE' tA',
  (1 < cTi cf)%nat /\ matrices cf stiffT starE starA srcA rfs /\ lowers algZ cf (predK algZ cf stiffT) /\ ckArrays cf junk scr dE dA tE tA /\ holds algZ cf dofsE dofsA q /\
  genTime 0 1 cf = Ok ks /\
  ckVanilla 0 Z.add Z.mul Z.div Z.of_nat (Z.eqb 0) cf ks (storeStiffT Z.opp cf stiffT) rfs dT starE starA srcA dofsE dofsA junk scr dE dA tE tA = Ok (sca', scr', dE', dA', tE', tA') /\
  ~ holds algZ cf (nth 1 dE' []) (map (fun a => nth 1 a []) dA') (fun z => opOf algZ cf Z.sub (predK algZ cf stiffT) starE starA srcA rfs (q z)).
Proof.
  exists exCfg, exStiffT, exStarE, exStarA, exSrcA, exRfs, 2, exDofsE, exDofsA, (zs 18), (zs 30), [zs 30; zs 30], [[zs 18; zs 18]], (zs 30), [zs 18], exQ.
  destruct (C74_derivatives algZ exCfg exStiffT exStarE exStarA exSrcA exRfs 2 exDofsE exDofsA (zs 18) (zs 30) [zs 30; zs 30] [[zs 18; zs 18]] (zs 30) [zs 18] exQ
    ltac:(cbn; lia) ex_matrices ex_lowers ex_arrays ex_dofs) as (ks & sca & scr & dE & dA & tE & tA & G & E & _ & D & _).
  exists ks, sca, scr, dE, dA, tE, tA. split; [cbn; lia|]. split; [exact ex_matrices|]. split; [exact ex_lowers|]. split; [exact ex_arrays|]. split; [exact ex_dofs|].
  split; [exact G|]. split; [exact E|]. intros H. destruct (D 1%nat ltac:(cbn; lia)) as (_ & _ & V). destruct H as (_ & _ & W).
  specialize (V 0%nat ltac:(cbn; lia)). specialize (W 0%nat ltac:(cbn; lia)). destruct V as (_ & V), W as (_ & W).
  specialize (V 0%nat 0%nat 1%nat ltac:(cbn; lia) ltac:(cbn; lia) ltac:(cbn; lia)). specialize (W 0%nat 0%nat 1%nat ltac:(cbn; lia) ltac:(cbn; lia) ltac:(cbn; lia)).
  rewrite V in W. vm_compute in W. discriminate W.
Qed.
Print Assumptions C74_relaxation_sign_refuted.

(** with relaxation mechanisms, the evaluation at points in time is not the Taylor polynomial: modes of high degree are dropped *)
Theorem C75_eval_attenuation_refuted : exists cf stiffT starE starA srcA rfs dE pts pre pre' q,
  (1 < cTi cf)%nat /\ lowers algZ cf (predK algZ cf stiffT) /\ sized (cTi cf) (nQtsE (cEl cf) * nModes (cEl cf) (cSp cf) * cCrs cf) dE /\
  (forall d, (d < cTi cf)%nat -> rep algZ cf (nQtsE (cEl cf)) (nModes (cEl cf) (cSp cf)) (nth d dE []) (fun z => fst (powOf algZ cf Z.add (predK algZ cf stiffT) starE starA srcA rfs d (q z)))) /\
  length pts = 1%nat /\ evalPred 1 Z.add Z.mul Z.div Z.of_nat cf pts dE pre = Ok pre' /\
  ~ rep algZ cf (nQtsE (cEl cf)) (nModes (cEl cf) (cSp cf)) (nth 0 pre' [])
      (fun z => fst (comb algZ (cTi cf) (escal algZ (nth 0 pts 0)) (fun d => powOf algZ cf Z.add (predK algZ cf stiffT) starE starA srcA rfs d (q z)))).
Proof.
  set (pw := fun d z => fst (powOf algZ exCfg Z.add (predK algZ exCfg exStiffT) exStarE exStarA exSrcA exRfs d (exQ z))).
  set (dE := [exArr 5 (pw 0%nat); exArr 5 (pw 1%nat)]).
  assert (D : forall d, (d < 2)%nat -> rep algZ exCfg 5 3 (nth d dE []) (pw d)).
  { intros d Hd. destruct d as [|[|d]]; [apply ex_rep; auto|apply ex_rep; auto|lia]. }
  destruct (evalPred 1 Z.add Z.mul Z.div Z.of_nat exCfg [1] dE [zs 30]) as [pre'|] eqn:E; [|vm_compute in E; discriminate].
  exists exCfg, exStiffT, exStarE, exStarA, exSrcA, exRfs, dE, [1], [zs 30], pre', exQ.
  split; [cbn; lia|]. split; [exact ex_lowers|]. split; [|split; [exact D|split; [reflexivity|split; [exact E|]]]].
  - split; [reflexivity|]. intros i Hi. apply (D i Hi).
  - intros (_ & R). specialize (R 0%nat 0%nat 1%nat ltac:(cbn; lia) ltac:(cbn; lia) ltac:(cbn; lia)). vm_compute in E. injection E as <-. vm_compute in R. discriminate R.
Qed.
Print Assumptions C75_eval_attenuation_refuted.

(** integration of the derivatives over the time step gives the procedure's own time integral *)
Example ex_integrate : match exRun with Ok (_, _, dE, _, tE, _) => integrate Z.add Z.mul Z.div Z.of_nat exCfg 2 dE (zs 30) = Ok tE | Er _ => False end.
Proof. vm_compute. reflexivity. Qed.
Definition exElastic : conf := Build_conf TRIA3 2 2 2 0.
Example ex_eval_elastic : exists dE, lowers algZ exElastic (predK algZ exElastic exStiffT) /\
  (forall d, (d < 2)%nat -> rep algZ exElastic 5 3 (nth d dE []) (fun z => fst (powOf algZ exElastic Z.add (predK algZ exElastic exStiffT) exStarE exStarA exSrcA exRfs d (exQ z)))) /\
  evalPred 1 Z.add Z.mul Z.div Z.of_nat exElastic [0; 1] dE [zs 30; zs 30] =
    Ok [exDofsE; exArr 5 (fun z x y => fst (exQ z) x y + (if (y =? 0)%nat then fst (opOf algZ exElastic Z.add (predK algZ exElastic exStiffT) exStarE exStarA exSrcA exRfs (exQ z)) x y else 0))].
Proof.
  set (pw := fun d z => fst (powOf algZ exElastic Z.add (predK algZ exElastic exStiffT) exStarE exStarA exSrcA exRfs d (exQ z))).
  exists [exArr 5 (pw 0%nat); exArr 5 (pw 1%nat)]. split; [exact ex_lowers|]. split; [|vm_compute; reflexivity].
  intros d Hd. destruct d as [|[|d]]; [apply (ex_rep 5 (pw 0%nat)); auto|apply (ex_rep 5 (pw 1%nat)); auto|lia].
Qed.

Example ex_testsLow : testsLow algZ exCfg exStiff.
Proof.
  intros di l y Hdi Hl Hy. cbn in Hdi, Hl, Hy. destruct di as [|[|di]]; [| |lia]; do 3 (destruct l as [|l]; [do 3 (destruct y as [|y]; [try reflexivity; cbn in Hl; lia|]); lia|]); lia.
Qed.
Example ex_volume : matrices exCfg exStiff exStarE exStarA exSrcA exRfs /\ match genVol 0 1 exCfg with Ok ks =>
  exists e a s, volInt 0 Z.add Z.sub Z.mul (Z.eqb 0) exCfg ks exStiff exRfs exStarE exStarA exSrcA exDofsE exDofsA (zs 18) exDofsE exDofsA (zs 30) = Ok (e, [a], s) /\ e <> exDofsE /\
    a = exArr 3 (fun z => snd (plus algZ (exQ z) (opOf algZ exCfg Z.sub (volK algZ exCfg exStiff) exStarE exStarA exSrcA exRfs (exQ z))) 0%nat) | Er _ => False end.
Proof.
  split; [split; [szd|]; split; [szd|]; split; [intros _; szd|]; split; [szd|reflexivity]|]. vm_compute. do 3 eexists. split; [reflexivity|]. split; [discriminate|reflexivity].
Qed.

Definition exF (i : nat) : list Z := map (fun j => Z.of_nat (i + 2 * j)) (seq 0 6).
Definition exLN := map exF (seq 0 6).
Definition exT := map exF (seq 3 3).
Example ex_flux : fluxMatrices exCfg exLN exT.
Proof. split; szd. Qed.
Definition eqz (a b : list Z) : bool := if list_eq_dec Z.eq_dec a b then true else false.
(** local and neighbouring contributions; the latter for data of the neighbour and for data that is projected to the face already *)
Definition exSurf : res bool :=
  ks <- genSurf 0 1 exCfg;;
  '(e, a, _, _) <- surfLocal 0 Z.add Z.mul (Z.eqb 0) exCfg ks exLN exT exRfs (repeat (map Z.of_nat (seq 1 25)) 3) (repeat (map Z.of_nat (seq 1 15)) 3) exDofsE (zs 18) exDofsE exDofsA (zs 20) (zs 20);;
  o <- neighFluxInt 0 Z.add Z.mul (Z.eqb 0) exCfg ks exLN 2 (Some 0%nat) 1 exDofsE (zs 20);;
  '(e1, u1, _, _) <- surfNeigh 0 Z.add Z.mul (Z.eqb 0) exCfg ks exLN exT 2 (Some 0%nat) 1 (map Z.of_nat (seq 1 25)) (map Z.of_nat (seq 1 15)) exDofsE None exDofsE (zs 18) (zs 20) (zs 20);;
  '(e2, u2, _, _) <- surfNeigh 0 Z.add Z.mul (Z.eqb 0) exCfg ks exLN exT 2 (Some 0%nat) 1 (map Z.of_nat (seq 1 25)) (map Z.of_nat (seq 1 15)) [] (Some o) exDofsE (zs 18) (zs 20) (zs 20);;
  Ok (negb (eqz e exDofsE) && negb (eqz (nth 0 a []) (nth 0 exDofsA [])) && negb (eqz o (zs 20)) && eqz e1 e2 && eqz u1 u2 && negb (eqz e1 exDofsE) && negb (eqz u1 (zs 18))).
Example ex_surface : exSurf = Ok true.
Proof. vm_compute. reflexivity. Qed.
