(** Kernels of the ADER-DG solver with LIBXSMM for single forward simulations: property C81. *)
From Coq Require Import Ring ZArith.
From Verif Require Import Util MeshConn MatMul Props_Mat Ader AderSpec AderV AderCk AderInt Props_Ader AderGen AderGenV MmXsmm XsmmSpec XsmmRef AderSg AderSgV.
Local Open Scope nat_scope.

(** *** Same results of two kernels, apart from the scratch memory *)
Definition sameCk {T} (a b : res (@ckState T)) : Prop := exists sca scrA scrB dE dA tE tA, a = Ok (sca, scrA, dE, dA, tE, tA) /\ b = Ok (sca, scrB, dE, dA, tE, tA).
Definition sameVol {T} (a b : res (list T * list (list T) * list T)) : Prop := exists e q scrA scrB, a = Ok (e, q, scrA) /\ b = Ok (e, q, scrB).
Definition sameSurf {X Y Z} (a b : res (X * Y * Z * Z)) : Prop := exists e q s0 s1 r0 r1, a = Ok (e, q, s0, s1) /\ b = Ok (e, q, r0, r1).

Section Same.
Context {T : Type}.
Variables (A : alg T) (cf : conf).
Local Notation zero := (aZero A).
Local Notation nMd := (nModes (cEl cf) (cSp cf)).
Local Notation nE := (nQtsE (cEl cf)).
Local Notation nM := (nQtsM (cEl cf)).
Local Notation nCr := (cCrs cf).
Local Notation nRm := (cRms cf).
Local Notation rep := (rep A cf).
Local Opaque nModes nModesCk nQtsE nQtsM nDis nModesFa nElFas.

(** the values of an array *)
Definition vals (n : nat) (l : list T) (z x y : nat) : T := nth (pos nCr n x y z) l zero.
Lemma rep_vals nq n l : length l = nq * n * nCr -> rep nq n l (vals n l).
Proof. intros H. split; auto. Qed.

Lemma reps_eq nq n k (l l' : list (list T)) f : length l = k -> length l' = k -> (forall i, i < k -> rep nq n (nth i l []) (f i)) ->
  (forall i, i < k -> rep nq n (nth i l' []) (f i)) -> l = l'.
Proof. intros L L' R R'. apply (nth_ext _ _ [] []); [lia|]. intros i Hi. apply (rep_inj A cf nq n _ _ (f i)); [apply R|apply R']; lia. Qed.

Lemma ckInv_same stiffT rfs dT starE starA srcA q s s' : ckInv A cf stiffT rfs dT starE starA srcA q (cTi cf) s -> ckInv A cf stiffT rfs dT starE starA srcA q (cTi cf) s' ->
  sameCk (Ok s) (Ok s').
Proof.
  destruct s as (((((sca & scr) & dE) & dA) & tE) & tA), s' as (((((sca' & scr') & dE') & dA') & tE') & tA').
  intros (I1 & I2 & (I3 & _) & (I4 & I4') & I5 & I6 & I7 & (I8 & _) & I9) (J1 & J2 & (J3 & _) & (J4 & J4') & J5 & J6 & J7 & (J8 & _) & J9). subst sca sca'.
  assert (dE = dE') as <- by (eapply reps_eq; [exact I3|exact J3|exact I5|exact J5]).
  assert (tE = tE') as <- by (eapply rep_inj; [exact I7|exact J7]).
  assert (tA = tA') as <- by (eapply (reps_eq _ _ _ tA tA'); [exact I8|exact J8|exact I9|exact J9]).
  assert (dA = dA') as <-.
  { apply (nth_ext _ _ [] []); [lia|]. intros rm Hrm. rewrite I4 in Hrm. eapply reps_eq; [apply (I4' rm Hrm)|apply (J4' rm Hrm)| |]; intros d Hd; [apply I6|apply J6]; auto. }
  exists (scal A dT (cTi cf - 1)), scr, scr', dE, dA, tE, tA. auto.
Qed.
End Same.

Section Props.
Context {T : Type}.
Variables (A : alg T) (cf : conf) (L : xsmm T).
Local Notation zero := (aZero A).
Local Notation one := (aOne A).
Local Notation add := (aAdd A).
Local Notation sub := (aSub A).
Local Notation mul := (aMul A).
Local Notation div := (aDiv A).
Local Notation opp := (aOpp A).
Local Notation ofN := (aOfN A).
Local Notation isz := (aIsz A).
Local Notation nMd := (nModes (cEl cf) (cSp cf)).
Local Notation nMdFa := (nModesFa (cEl cf) (cSp cf)).
Local Notation nFa := (nElFas (cEl cf)).
Local Notation nE := (nQtsE (cEl cf)).
Local Notation nM := (nQtsM (cEl cf)).
Local Notation nCr := (cCrs cf).
Local Notation nRm := (cRms cf).
Local Opaque nModes nModesCk nQtsE nQtsM nDis nModesFa nElFas.

(** ** C81: the LIBXSMM kernels of single simulations have the results of the kernels without libraries, for every library with the
       matrix products specified in XsmmSpec.v *)
Theorem C81_time_prediction stiffT starE starA srcA rfs dT dofsE dofsA junk scr dE dA tE tA :
  dense A (xGemm L) -> nCr = 1 -> 1 <= cTi cf -> matrices cf stiffT starE starA srcA rfs -> lowers A cf (predK A cf stiffT) -> ckArrays cf junk scr dE dA tE tA ->
  length dofsE = nE * nMd * nCr -> sized nRm (nM * nMd * nCr) dofsA ->
  exists ks ksS, genTime zero one cf = Ok ks /\ genTimeS cf = Ok ksS /\
    sameCk (ckVanilla zero add mul div ofN isz cf ks (storeStiffT opp cf stiffT) rfs dT starE starA srcA dofsE dofsA junk scr dE dA tE tA)
           (ckSingle zero add mul div ofN L cf ksS (storeStiffT opp cf stiffT) rfs dT starE starA srcA dofsE dofsA junk scr dE dA tE tA).
Proof.
  intros Spec Cr HT (H1 & H2 & H3 & H4 & H5) Low (J1 & J2 & J3 & J4 & J5 & J6) Lq (LA & SA).
  set (q := fun z => (vals A cf nMd dofsE z, fun rm => vals A cf nMd (nth rm dofsA []) z) : state).
  assert (Q1 : rep A cf nE nMd dofsE (fun z => fst (q z))) by (apply (rep_vals A cf nE nMd dofsE Lq)).
  assert (Q3 : forall rm, rm < nRm -> rep A cf nM nMd (nth rm dofsA []) (fun z => snd (q z) rm)) by (intros rm Hrm; apply (rep_vals A cf nM nMd _ (SA rm Hrm))).
  destruct (genTime_ok A cf) as (ks & Gen & _). destruct (genTimeS_ok cf) as (ksS & GenS & _).
  destruct (ckVanilla_ok A cf ks stiffT rfs dT starE starA srcA Gen H1 H2 H3 H4 H5 Low q dofsE dofsA junk scr dE dA tE tA HT J1 J2 J3 J4 J5 J6 LA Q1 Q3) as (s & E & I).
  destruct (ckSingle_ok A cf L Spec Cr ksS stiffT rfs dT starE starA srcA q GenS H1 H2 H3 H4 H5 Low dofsE dofsA junk scr dE dA tE tA HT J1 J2 J3 J4 J5 J6 LA Q1 Q3) as (s' & E' & I').
  exists ks, ksS. split; [exact Gen|]. split; [exact GenS|]. rewrite E, E'. exact (ckInv_same A cf stiffT rfs dT starE starA srcA q s s' I I').
Qed.

Theorem C81_volume stiff starE starA srcA rfs tE tA junk dofsE dofsA scr :
  dense A (xGemm L) -> nCr = 1 -> matrices cf stiff starE starA srcA rfs -> testsLow A cf stiff -> length junk = nM * nMd * nCr -> length scr = nE * nMd * nCr ->
  length tE = nE * nMd * nCr -> sized nRm (nM * nMd * nCr) tA -> length dofsE = nE * nMd * nCr -> sized nRm (nM * nMd * nCr) dofsA ->
  exists ks ksS, genVol zero one cf = Ok ks /\ genVolS cf = Ok ksS /\
    sameVol (volInt zero add sub mul isz cf ks stiff rfs starE starA srcA tE tA junk dofsE dofsA scr) (volSingle zero add sub mul L cf ksS stiff rfs starE starA srcA tE tA junk dofsE dofsA scr).
Proof.
  intros Spec Cr (H1 & H2 & H3 & H4 & H5) Low Lj Ls Lt (LtA & StA) Lq (LA & SA).
  set (t := fun z => (vals A cf nMd tE z, fun rm => vals A cf nMd (nth rm tA []) z) : state).
  assert (T1 : rep A cf nE nMd tE (fun z => fst (t z))) by (apply (rep_vals A cf nE nMd tE Lt)).
  assert (T3 : forall rm, rm < nRm -> rep A cf nM nMd (nth rm tA []) (fun z => snd (t z) rm)) by (intros rm Hrm; apply (rep_vals A cf nM nMd _ (StA rm Hrm))).
  assert (Q1 := rep_vals A cf nE nMd dofsE Lq). assert (Q3 := fun rm Hrm => rep_vals A cf nM nMd _ (SA rm Hrm)).
  destruct (genVol_ok A cf) as (ks & Gen & _). assert (exists ksS, genVolS cf = Ok ksS) as (ksS & GenS) by (unfold genVolS; destruct (0 <? nRm); eexists; reflexivity).
  destruct (volInt_ok A cf rfs starE starA srcA stiff H1 H2 H3 H4 H5 Low ks tE tA junk dofsE dofsA scr t _ _ Gen Lj Ls T1 LtA T3 Q1 LA Q3) as (e & a & s & E & _ & RE & LE & RA).
  destruct (volSingle_ok A cf L Spec Cr ksS rfs starE starA srcA stiff GenS H1 H2 H3 H4 H5 Low tE tA junk dofsE dofsA scr t _ _ Lj Ls T1 LtA T3 Q1 LA Q3) as (e' & a' & s' & E' & _ & RE' & LE' & RA').
  exists ks, ksS. split; [exact Gen|]. split; [exact GenS|]. rewrite E, E'.
  assert (e = e') as <- by (eapply rep_inj; [exact RE|exact RE']). assert (a = a') as <- by (eapply reps_eq; [exact LE|exact LE'|exact RA|exact RA']).
  exists e, a, s, s'. auto.
Qed.

Lemma genSurfS_ex : exists ksS, genSurfS cf = Ok ksS.
Proof. eexists. reflexivity. Qed.

Theorem C81_surface_local fIntLN fIntT rfs fsE fsA tE junk dofsE dofsA scr0 scr1 :
  dense A (xGemm L) -> nCr = 1 -> fluxMatrices cf fIntLN fIntT -> length rfs = nRm -> sized nFa (nE * nE) fsE -> (0 < nRm -> sized nFa (nM * nE) fsA) ->
  length junk = nM * nMd * nCr -> length scr0 = nE * nMdFa * nCr -> length scr1 = nE * nMdFa * nCr ->
  length tE = nE * nMd * nCr -> length dofsE = nE * nMd * nCr -> sized nRm (nM * nMd * nCr) dofsA ->
  exists ks ksS, genSurf zero one cf = Ok ks /\ genSurfS cf = Ok ksS /\
    sameSurf (surfLocal zero add mul isz cf ks fIntLN fIntT rfs fsE fsA tE junk dofsE dofsA scr0 scr1) (surfLocalSingle zero add mul L cf ksS fIntLN fIntT rfs fsE fsA tE junk dofsE dofsA scr0 scr1).
Proof.
  intros Spec Cr (F1 & F2) Lr S1 S2 Lj L0 L1 Lt Lq (LA & SA).
  assert (T1 := rep_vals A cf nE nMd tE Lt). assert (Q1 := rep_vals A cf nE nMd dofsE Lq). assert (Q3 := fun rm Hrm => rep_vals A cf nM nMd _ (SA rm Hrm)).
  destruct (genSurf_ok A cf) as (ks & Gen & _). destruct genSurfS_ex as (ksS & GenS).
  destruct (surfLocal_ok A cf rfs ks fIntLN fIntT Lr Gen F2 F1 fsE fsA tE junk dofsE dofsA scr0 scr1 _ _ _ S1 S2 Lj L0 L1 T1 Q1 LA Q3) as (e & a & s0 & s1 & E & _ & _ & RE & LE & RA).
  destruct (surfLocalG_ok A cf rfs fIntLN fIntT Lr (sLN L ksS fIntLN) (sFs L ksS 0 1) (sFs L ksS 1 0) (sT L ksS 0 2 fIntT) (sT L ksS 1 1 fIntT)
      (fun f F => f = F /\ length F = nE * nE) (fun f F => f = F /\ length F = nM * nE)
      (sLN_ok A cf L Spec Cr ksS fIntLN GenS F1) (sFsE_ok A cf L Spec Cr ksS GenS) (sT_ok A cf L Spec Cr ksS fIntT GenS F2)
      (fun _ => sFsA_ok A cf L Spec Cr ksS GenS) (fun _ => sTA_ok A cf L Spec Cr ksS fIntT GenS F2)
      fsE fsA fsE fsA tE junk dofsE dofsA scr0 scr1 _ _ _ (proj1 S1) (fun fa Hfa => conj eq_refl (proj2 S1 fa Hfa))
      (fun R => conj (proj1 (S2 R)) (fun fa Hfa => conj eq_refl (proj2 (S2 R) fa Hfa))) Lj L0 L1 T1 Q1 LA Q3) as (e' & a' & r0 & r1 & E' & _ & _ & RE' & LE' & RA').
  exists ks, ksS. split; [exact Gen|]. split; [exact GenS|]. unfold surfLocalSingle. rewrite E, E'.
  assert (e = e') as <- by (eapply rep_inj; [exact RE|exact RE']). assert (a = a') as <- by (eapply reps_eq; [exact LE|exact LE'|exact RA|exact RA']).
  exists e, a, s0, s1, r0, r1. auto.
Qed.

(** data of a neighbour that is projected to the face and sent *)
Theorem C81_sent_data fIntLN fIntT fa vId fId tE o :
  dense A (xGemm L) -> nCr = 1 -> fluxMatrices cf fIntLN fIntT -> matrixOf cf fa vId fId < nFa + nFluxN (cEl cf) -> length tE = nE * nMd * nCr -> length o = nE * nMdFa * nCr ->
  exists ks ksS o', genSurf zero one cf = Ok ks /\ genSurfS cf = Ok ksS /\
    neighFluxInt zero add mul isz cf ks fIntLN fa vId fId tE o = Ok o' /\ neighFluxIntSingle L cf ksS fIntLN fa vId fId tE o = Ok o'.
Proof.
  intros Spec Cr (F1 & F2) Hid Lt Lo. assert (T1 := rep_vals A cf nE nMd tE Lt).
  destruct (genSurf_ok A cf) as (ks & Gen & _). destruct genSurfS_ex as (ksS & GenS).
  destruct (neighFluxInt_ok A cf (repeat zero nRm) ks fIntLN (repeat_length _ _) Gen F1 fa vId fId tE _ o Hid T1 Lo) as (o1 & E & R).
  destruct (neighFluxIntG_ok A cf fIntLN (sLN L ksS fIntLN) (sLN_ok A cf L Spec Cr ksS fIntLN GenS F1) fa vId fId tE _ o Hid T1 Lo) as (o2 & E' & R').
  exists ks, ksS, o1. split; [exact Gen|]. split; [exact GenS|]. split; [exact E|]. unfold neighFluxIntSingle. rewrite E'. f_equal. symmetry. eapply rep_inj; [exact R|exact R'].
Qed.

(** contribution of a neighbour: its data, or data [p] that was projected to the face by the kernel above *)
Theorem C81_surface_neigh fIntLN fIntT fa vId fId fsE fsA tE pre dofsE upA scr0 scr1 ks :
  dense A (xGemm L) -> nCr = 1 -> fluxMatrices cf fIntLN fIntT -> fa < nFa -> matrixOf cf fa vId fId < nFa + nFluxN (cEl cf) ->
  length fsE = nE * nE -> (0 < nRm -> length fsA = nM * nE) -> length scr0 = nE * nMdFa * nCr -> length scr1 = nE * nMdFa * nCr -> genSurf zero one cf = Ok ks ->
  match pre with
  | None => length tE = nE * nMd * nCr
  | Some p => exists t o, length t = nE * nMd * nCr /\ length o = nE * nMdFa * nCr /\ neighFluxInt zero add mul isz cf ks fIntLN fa vId fId t o = Ok p
  end -> length dofsE = nE * nMd * nCr -> length upA = nM * nMd * nCr ->
  exists ksS, genSurfS cf = Ok ksS /\
    sameSurf (surfNeigh zero add mul isz cf ks fIntLN fIntT fa vId fId fsE fsA tE pre dofsE upA scr0 scr1) (surfNeighSingle L cf ksS fIntLN fIntT fa vId fId fsE fsA tE pre dofsE upA scr0 scr1).
Proof.
  intros Spec Cr (F1 & F2) Hfa Hid S1 S2 L0 L1 Gen Pre Lq Lu. destruct genSurfS_ex as (ksS & GenS).
  assert (exists t, match pre with None => rep A cf nE nMd tE t | Some p => rep A cf nE nMdFa p (fun z => faceInt A cf (nth (matrixOf cf fa vId fId) fIntLN []) (t z)) end) as (t & Rt).
  { destruct pre as [p|]; [|exists (vals A cf nMd tE); apply rep_vals; exact Pre]. destruct Pre as (t & o & Lt & Lo & E).
    destruct (neighFluxInt_ok A cf (repeat zero nRm) ks fIntLN (repeat_length _ _) Gen F1 fa vId fId t _ o Hid (rep_vals A cf nE nMd t Lt) Lo) as (o1 & E1 & R).
    rewrite E in E1. injection E1 as <-. eexists. exact R. }
  destruct (surfNeigh_ok A cf (repeat zero nRm) ks fIntLN fIntT (repeat_length _ _) Gen F2 F1 fa vId fId fsE fsA tE pre dofsE upA scr0 scr1 t _ _ Hfa Hid S1 S2 L0 L1 Rt
    (rep_vals A cf nE nMd dofsE Lq) (rep_vals A cf nM nMd upA Lu)) as (d & u & s0 & s1 & E & _ & _ & RE & RU).
  destruct (surfNeighG_ok A cf fIntLN fIntT (sLN L ksS fIntLN) (sFs L ksS 0 1) (sFs L ksS 1 0) (sT L ksS 0 2 fIntT) (sT L ksS 1 1 fIntT)
      (fun f F => f = F /\ length F = nE * nE) (fun f F => f = F /\ length F = nM * nE)
      (sLN_ok A cf L Spec Cr ksS fIntLN GenS F1) (sFsE_ok A cf L Spec Cr ksS GenS) (sT_ok A cf L Spec Cr ksS fIntT GenS F2)
      (fun _ => sFsA_ok A cf L Spec Cr ksS GenS) (fun _ => sTA_ok A cf L Spec Cr ksS fIntT GenS F2)
      fa vId fId fsE fsA fsE fsA tE pre dofsE upA scr0 scr1 t _ _ Hfa Hid (conj eq_refl S1) (fun R => conj eq_refl (S2 R)) L0 L1 Rt
    (rep_vals A cf nE nMd dofsE Lq) (rep_vals A cf nM nMd upA Lu)) as (d' & u' & r0 & r1 & E' & _ & _ & RE' & RU').
  exists ksS. split; [exact GenS|]. unfold surfNeighSingle. rewrite E, E'.
  assert (d = d') as <- by (eapply rep_inj; [exact RE|exact RE']). assert (u = u') as <- by (eapply rep_inj; [exact RU|exact RU']).
  exists d, u, s0, s1, r0, r1. auto.
Qed.
End Props.

Print Assumptions C81_time_prediction.
Print Assumptions C81_volume.
Print Assumptions C81_surface_local.
Print Assumptions C81_sent_data.
Print Assumptions C81_surface_neigh.

(** ** Concrete cases: triangles of second order, one simulation, one relaxation mechanism, exact integers and a library with the required products *)
Local Open Scope Z_scope.
Definition sgCfg : conf := single exCfg.
Definition sgLib := refLib algZ true.
Example sg_lib : dense algZ (xGemm sgLib).
Proof. apply refLib_ok. Qed.
Definition sgArr (n : nat) : list Z := map (fun i => Z.of_nat (3 + 7 * i)) (seq 0 n).
Example sg_matrices : matrices sgCfg exStiffT exStarE exStarA exSrcA exRfs /\ lowers algZ sgCfg (predK algZ sgCfg exStiffT) /\ matrices sgCfg exStiff exStarE exStarA exSrcA exRfs /\ testsLow algZ sgCfg exStiff /\
  fluxMatrices sgCfg exLN exT.
Proof.
  split; [exact ex_matrices|]. split; [exact ex_lowers|]. split; [exact (proj1 ex_volume)|]. split; [exact ex_testsLow|exact ex_flux].
Qed.
Example sg_arrays : ckArrays sgCfg (zs 9) (zs 15) [zs 15; zs 15] [[zs 9; zs 9]] (zs 15) [zs 9] /\ length (sgArr 15) = 15%nat /\ sized 1 9 [sgArr 9].
Proof.
  split; [|split; [reflexivity|szd]]. split; [reflexivity|]. split; [reflexivity|]. split; [szd|]. split; [split; [reflexivity|]|split; [reflexivity|szd]].
  intros rm Hrm. cbn in Hrm. destruct rm; [|lia]. szd.
Qed.
(** the results differ from the initial values: derivatives, time integrals *)
Example sg_time : match genTimeS sgCfg with Ok ks => exists sca scr e0 e1 a0 a1 tE tA,
  ckSingle 0 Z.add Z.mul Z.div Z.of_nat sgLib sgCfg ks (storeStiffT Z.opp sgCfg exStiffT) exRfs 2 exStarE exStarA exSrcA (sgArr 15) [sgArr 9] (zs 9) (zs 15) [zs 15; zs 15] [[zs 9; zs 9]] (zs 15) [zs 9]
    = Ok (sca, scr, [e0; e1], [[a0; a1]], tE, [tA]) /\ e0 = sgArr 15 /\ a0 = sgArr 9 /\ hd 0 e1 <> 0 /\ hd 0 a1 <> 0 /\ hd 0 tE <> 2 * hd 0 e0 /\ hd 0 tA <> 2 * hd 0 a0 | Er _ => False end.
Proof. vm_compute. do 8 eexists. split; [reflexivity|]. repeat split; discriminate. Qed.
Example sg_volume : match genVolS sgCfg with Ok ks => exists e a s,
  volSingle 0 Z.add Z.sub Z.mul sgLib sgCfg ks exStiff exRfs exStarE exStarA exSrcA (sgArr 15) [sgArr 9] (zs 9) (sgArr 15) [sgArr 9] (zs 15) = Ok (e, [a], s) /\ e <> sgArr 15 /\ a <> sgArr 9 | Er _ => False end.
Proof. vm_compute. do 3 eexists. split; [reflexivity|]. split; discriminate. Qed.
Definition sgSurf : res bool :=
  ks <- genSurfS sgCfg;;
  '(e, a, _, _) <- surfLocalSingle 0 Z.add Z.mul sgLib sgCfg ks exLN exT exRfs (repeat (map Z.of_nat (seq 1 25)) 3) (repeat (map Z.of_nat (seq 1 15)) 3) (sgArr 15) (zs 9) (sgArr 15) [sgArr 9] (zs 10) (zs 10);;
  o <- neighFluxIntSingle sgLib sgCfg ks exLN 2 (Some 0%nat) 1 (sgArr 15) (zs 10);;
  '(e1, u1, _, _) <- surfNeighSingle sgLib sgCfg ks exLN exT 2 (Some 0%nat) 1 (map Z.of_nat (seq 1 25)) (map Z.of_nat (seq 1 15)) (sgArr 15) None (sgArr 15) (zs 9) (zs 10) (zs 10);;
  '(e2, u2, _, _) <- surfNeighSingle sgLib sgCfg ks exLN exT 2 (Some 0%nat) 1 (map Z.of_nat (seq 1 25)) (map Z.of_nat (seq 1 15)) [] (Some o) (sgArr 15) (zs 9) (zs 10) (zs 10);;
  Ok (negb (eqz e (sgArr 15)) && negb (eqz (nth 0 a []) (sgArr 9)) && negb (eqz o (zs 10)) && eqz e1 e2 && eqz u1 u2 && negb (eqz e1 (sgArr 15)) && negb (eqz u1 (zs 9))).
Example sg_surface : sgSurf = Ok true.
Proof. vm_compute. reflexivity. Qed.
