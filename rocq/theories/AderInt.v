(** Evaluation and integration of the time prediction, volume and surface integration: values of the results. *)
From Coq Require Import Ring.
From Verif Require Import Util MeshConn MatMul Props_Mat Ader AderSpec AderV AderCk.

Section Int.
Context {T : Type}.
Variables (A : alg T) (cf : conf).
Local Notation zero := (aZero A).
Local Notation one := (aOne A).
Local Notation add := (aAdd A).
Local Notation sub := (aSub A).
Local Notation mul := (aMul A).
Local Notation div := (aDiv A).
Local Notation opp := (aOpp A).
Local Notation ofN := (aOfN A).
Local Notation isz := (aIsz A).
Add Ring TR3 : (aRT A).
Local Notation nDi := (nDis (cEl cf)).
Local Notation nMd := (nModes (cEl cf) (cSp cf)).
Local Notation nMdFa := (nModesFa (cEl cf) (cSp cf)).
Local Notation nFa := (nElFas (cEl cf)).
Local Notation ck_ := (nModesCk (cEl cf) (cSp cf)).
Local Notation nE := (nQtsE (cEl cf)).
Local Notation nM := (nQtsM (cEl cf)).
Local Notation nCr := (cCrs cf).
Local Notation nRm := (cRms cf).
Local Notation sum := (sum A).
Local Notation rep := (rep A cf).
Local Notation ent := (ent A).
Local Opaque nModes nModesCk nQtsE nQtsM nDis nModesFa nElFas.

Local Notation escal := (escal A).

Lemma evalPred_ok pts der pre (D : nat -> nat -> nat -> nat -> T) : 1 <= cTi cf ->
  sized (cTi cf) (nE * nMd * nCr) der -> (forall d, d < cTi cf -> rep nE nMd (nth d der []) (D d)) -> sized (length pts) (nE * nMd * nCr) pre ->
  exists pre', evalPred one add mul div ofN cf pts der pre = Ok pre' /\ sized (length pts) (nE * nMd * nCr) pre' /\
    forall pt, pt < length pts -> rep nE nMd (nth pt pre' []) (fun z x y => sum (cTi cf) (fun d => if y <? ck_ d then mul (escal (nth pt pts zero) d) (D d z x y) else zero)).
Proof.
  intros HT Sd VD Sp. unfold evalPred.
  loop (fun n pre' => sized (length pts) (nE * nMd * nCr) pre' /\
    forall pt, pt < n -> rep nE nMd (nth pt pre' []) (fun z x y => sum (cTi cf) (fun d => if y <? ck_ d then mul (escal (nth pt pts zero) d) (D d z x y) else zero))) as p' E H.
  - lia.
  - split; [auto|intros; lia].
  - intros pt pr Hpt (S1 & V1). rewrite (rd_ok _ _ zero) by lia. cbn [bind]. rewrite (rd_sized _ _ _ 0 Sd) by lia. cbn [bind]. rewrite (rd_sized _ _ _ pt S1) by lia. cbn [bind].
    set (t := nth pt pts zero).
    destruct (copyE_ok A cf nE (nth 0 der []) (nth pt pr []) _ ltac:(apply S1; lia) (VD 0 ltac:(lia))) as (o & Eo & Ro). rewrite Eo. cbn [bind]. clear Eo.
    loop (fun de (s : T * list T) => fst s = escal t (de - 1) /\ rep nE nMd (snd s) (fun z x y => sum de (fun d => if y <? ck_ d then mul (escal t d) (D d z x y) else zero))) as s E1 H1.
    + lia.
    + split; [reflexivity|]. eapply rep_ext; [exact Ro|]. intros z x y Hz Hx Hy. cbn [AderSpec.sum escal]. rewrite ck_0. rewrite (proj2 (Nat.ltb_lt _ _) Hy). ring.
    + intros de (sca & o1) Hde (Hs & R1). cbn [fst snd] in Hs, R1. rewrite (rd_sized _ _ _ de Sd) by lia. cbn [bind].
      destruct (axpyE_ok A cf nE (ck_ de) (mul sca (div t (ofN de))) (nth de der []) o1 _ _ (ck_le _ _ _) R1 (VD de ltac:(lia))) as (o2 & E2 & R2). rewrite E2. cbn [bind]. clear E2.
      assert (Sc : mul sca (div t (ofN de)) = escal t de).
      { rewrite Hs. destruct de as [|d]; [lia|]. replace (S d - 1) with d by lia. reflexivity. }
      eexists. split; [reflexivity|]. cbn [fst snd]. split; [rewrite Sc; f_equal; lia|]. eapply rep_ext; [exact R2|]. intros z x y Hz Hx Hy. cbv beta. cbn [AderSpec.sum].
      rewrite Sc. destruct (y <? ck_ de); ring.
    + destruct s as (sca & o1). destruct H1 as (_ & R1). cbn [snd] in R1. cbn [bind]. rewrite (wr_sized _ _ _ pt _ S1) by lia. eexists. split; [reflexivity|].
      split; [apply sized_upd; [auto|apply R1]|]. intros p Hp. destruct (Nat.eq_dec pt p) as [<-|N].
      * rewrite nth_upd_eq by (destruct S1; lia). exact R1.
      * rewrite nth_upd_ne by auto. apply V1. lia.
  - exists p'. split; [reflexivity|]. exact H.
Qed.

Lemma integrate_ok dt der o (D : nat -> nat -> nat -> nat -> T) : 1 <= cTi cf ->
  sized (cTi cf) (nE * nMd * nCr) der -> (forall d, d < cTi cf -> rep nE nMd (nth d der []) (D d)) -> length o = nE * nMd * nCr ->
  exists o', integrate add mul div ofN cf dt der o = Ok o' /\
    rep nE nMd o' (fun z x y => sum (cTi cf) (fun d => if y <? (if nRm =? 0 then ck_ d else nMd) then mul (scal A dt d) (D d z x y) else zero)).
Proof.
  intros HT Sd VD Lo. unfold integrate. rewrite (rd_sized _ _ _ 0 Sd) by lia. cbn [bind].
  destruct (scaleE_ok A cf nE dt (nth 0 der []) o _ Lo (VD 0 ltac:(lia))) as (o1 & E1 & R1). rewrite E1. cbn [bind]. clear E1.
  loop (fun de (s : T * list T) => fst s = scal A dt (de - 1) /\ rep nE nMd (snd s) (fun z x y => sum de (fun d => if y <? (if nRm =? 0 then ck_ d else nMd) then mul (scal A dt d) (D d z x y) else zero))) as s E H.
  - lia.
  - split; [reflexivity|]. eapply rep_ext; [exact R1|]. intros z x y Hz Hx Hy. cbn [AderSpec.sum scal]. rewrite ck_0.
    replace (if nRm =? 0 then nMd else nMd) with nMd by (destruct (nRm =? 0); reflexivity). rewrite (proj2 (Nat.ltb_lt _ _) Hy). ring.
  - intros de (sca & o2) Hde (Hs & R2). cbn [fst snd] in Hs, R2. rewrite (rd_sized _ _ _ de Sd) by lia. cbn [bind].
    destruct (axpyE_ok A cf nE (if nRm =? 0 then ck_ de else nMd) (mul sca (div dt (ofN (de + 1)))) (nth de der []) o2 _ _
      ltac:(destruct (nRm =? 0); [apply ck_le|lia]) R2 (VD de ltac:(lia))) as (o3 & E3 & R3). rewrite E3. cbn [bind]. clear E3.
    assert (Sc : mul sca (div dt (ofN (de + 1))) = scal A dt de) by (rewrite Hs; symmetry; apply scal_S; lia).
    eexists. split; [reflexivity|]. cbn [fst snd]. split; [rewrite Sc; f_equal; lia|]. eapply rep_ext; [exact R3|]. intros z x y Hz Hx Hy. cbv beta. cbn [AderSpec.sum].
    rewrite Sc. destruct (y <? (if nRm =? 0 then ck_ de else nMd)); ring.
  - destruct s as (sca & o2). destruct H as (_ & R2). cbn [snd] in R2. cbn [bind]. exists o2. split; [reflexivity|exact R2].
Qed.

(** *** Volume *)
Lemma genVol_ok : exists ks, genVol zero one cf = Ok ks /\
  kern ks 0 0 = Ok (kAC one cf nE nMd (ck_ 1) nMd nMd nMd zero) /\ kern ks 0 1 = Ok (kBC one cf nE nMd nE nE nMd nMd one) /\
  (0 < nRm -> kern ks 1 0 = Ok (kBC one cf nM nMd nDi nDi nMd nMd one) /\ kern ks 1 1 = Ok (kBC one cf nM nMd nM nM nMd nMd one)).
Proof.
  unfold genVol. set (a := kAC _ _ _ _ _ _ _ _ _). set (b := kBC _ _ nE _ _ _ _ _ _). set (c := kBC _ _ nM nMd nDi _ _ _ _). set (d := kBC _ _ nM nMd nM _ _ _ _).
  assert (V : (vAC a || vBC a = true /\ vAC b || vBC b = true) /\ vAC c || vBC c = true /\ vAC d || vBC d = true) by (repeat split). clearbody a b c d. destruct V as ((Va & Vb) & Vc & Vd).
  rewrite vAdd by auto. cbn. rewrite vAdd by auto. cbn. destruct (0 <? nRm) eqn:R.
  - change (match nRm with 0 => false | S _ => true end) with (0 <? nRm). rewrite R. rewrite vAdd by auto. cbn. rewrite vAdd by auto. cbn. eexists. split; [reflexivity|]. repeat split.
  - change (match nRm with 0 => false | S _ => true end) with (0 <? nRm). rewrite R. eexists. split; [reflexivity|]. split; [reflexivity|]. split; [reflexivity|]. intros H. apply Nat.ltb_ge in R. lia.
Qed.

Variables (rfs : list T) (starE starA srcA : list (list T)) (stiff : list (list T)).
Hypothesis Hst : sized nDi (nMd * nMd) stiff.
Hypothesis HsE : sized nDi (nE * nE) starE.
Hypothesis HsA : 0 < nRm -> sized nDi (nM * nDi) starA.
Hypothesis Hsrc : sized nRm (nM * nM) srcA.
Hypothesis Hrf : length rfs = nRm.

Definition Kv (di l y : nat) : T := ent nMd (nth di stiff []) l y.
(** only the first CK(1) modes are tested with the derivatives of the basis *)
Hypothesis LowV : forall di l y, di < nDi -> ck_ 1 <= l < nMd -> y < nMd -> Kv di l y = zero.

Local Notation opE := (opE A cf Kv (sE A cf starE) (src A cf srcA)).
Local Notation opA := (opA A cf sub Kv (sA A cf starA) (rf A rfs)).
Local Notation grad := (grad A cf Kv).

Lemma volInt_ok ks tE tA junk dofsE dofsA scr (q : nat -> @state T) fE fA : genVol zero one cf = Ok ks ->
  length junk = nM * nMd * nCr -> length scr = nE * nMd * nCr ->
  rep nE nMd tE (fun z => fst (q z)) -> length tA = nRm -> (forall rm, rm < nRm -> rep nM nMd (nth rm tA []) (fun z => snd (q z) rm)) ->
  rep nE nMd dofsE fE -> length dofsA = nRm -> (forall rm, rm < nRm -> rep nM nMd (nth rm dofsA []) (fA rm)) ->
  exists dofsE' dofsA' scr', volInt zero add sub mul isz cf ks stiff rfs starE starA srcA tE tA junk dofsE dofsA scr = Ok (dofsE', dofsA', scr') /\ length scr' = nE * nMd * nCr /\
    rep nE nMd dofsE' (fun z x y => add (fE z x y) (opE (q z) x y)) /\ length dofsA' = nRm /\
    (forall rm, rm < nRm -> rep nM nMd (nth rm dofsA' []) (fun z x y => add (fA rm z x y) (opA (q z) rm x y))).
Proof.
  intros Gen Lj Ls RtE LtA RtA RdE LdA RdA. destruct genVol_ok as (ks' & Gen' & K00 & K01 & K1). rewrite Gen in Gen'. injection Gen' as <-.
  assert (NM := nM_nE cf). assert (Cn1 := ck_le (cEl cf) (cSp cf) 1). unfold volInt.
  destruct (zeroE_ok A cf nM junk Lj) as (s0 & E0 & R0). rewrite E0. cbn [bind]. clear E0.
  set (GEd := fun di x y z => sum di (fun d' => sum nE (fun j => mul (sE A cf starE d' x j) (grad d' (fst (q z)) j y)))).
  set (GAd := fun di x y z => sum di (fun d' => sum nDi (fun j => mul (sA A cf starA d' x j) (grad d' (fst (q z)) (nM + j) y)))).
  loop (fun di (s : list T * list T * list T) => let '(scr, dE, sa) := s in length scr = nE * nMd * nCr /\
    rep nE nMd dE (fun z x y => add (fE z x y) (GEd di x y z)) /\ rep nM nMd sa (fun z x y => if 0 <? nRm then GAd di x y z else zero)) as s1 E1 H1.
  - lia.
  - split; [auto|]. split; [eapply rep_ext; [exact RdE|]; intros; unfold GEd; cbn [AderSpec.sum]; ring|]. eapply rep_ext; [exact R0|]. intros. cbv beta. unfold GAd. destruct (0 <? nRm); reflexivity.
  - intros di ((scr1 & dE1) & sa1) Hdi (L1 & Re & Rs). rewrite K00. cbn [bind]. rewrite (rd_sized _ _ _ di Hst) by lia. cbn [bind].
    destruct (run_ac A cf nE nMd (ck_ 1) nE nMd nMd nMd nE nMd zero tE (nth di stiff []) scr1 _ _
      ltac:(lia) ltac:(lia) ltac:(lia) ltac:(lia) ltac:(lia) ltac:(lia) RtE ltac:(apply Hst; lia) (rep_any A cf _ _ _ L1)) as (scr2 & Er & Rscr).
    rewrite Er. cbn [bind]. clear Er. rewrite K01. cbn [bind]. rewrite (rd_sized _ _ _ di HsE) by lia. cbn [bind].
    assert (Rg : rep nE nMd scr2 (fun z x y => grad di (fst (q z)) x y)).
    { eapply rep_ext; [exact Rscr|]. intros z x y Hz Hx Hy. cbv beta. rewrite (proj2 (Nat.ltb_lt _ _) Hx), (proj2 (Nat.ltb_lt _ _) Hy). cbn [andb]. unfold sc. rewrite (aIz A).
      unfold AderSpec.grad. rewrite (sum_le A (ck_ 1) nMd) by (auto; intros l Hl; rewrite LowV by (auto; lia); ring).
      fold (Kv di). unfold Kv. ring. }
    destruct (run_bc A cf nE nMd nE nE nE nMd nMd nE nE one (nth di starE []) scr2 dE1 _ _
      ltac:(lia) ltac:(lia) ltac:(lia) ltac:(lia) ltac:(lia) ltac:(lia) ltac:(apply HsE; lia) Rg Re) as (e2 & Er & Re2).
    rewrite Er. cbn [bind]. clear Er.
    assert (RE : rep nE nMd e2 (fun z x y => add (fE z x y) (GEd (S di) x y z))).
    { eapply rep_ext; [exact Re2|]. intros z x y Hz Hx Hy. cbv beta. rewrite (proj2 (Nat.ltb_lt _ _) Hx), (proj2 (Nat.ltb_lt _ _) Hy). cbn [andb]. unfold sc. rewrite (aIo A).
      unfold GEd, sE. cbn [AderSpec.sum]. ring. }
    destruct (0 <? nRm) eqn:R.
    + apply Nat.ltb_lt in R. destruct (K1 R) as (-> & _). cbn [bind]. rewrite (rd_sized _ _ _ di (HsA R)) by lia. cbn [bind].
      destruct (run_bc A cf nM nMd nDi nM nDi nMd nMd nM (nE - nM) one (nth di starA []) (skipn (nM * nMd * nCr) scr2) sa1 _ _
        ltac:(lia) ltac:(lia) ltac:(lia) ltac:(lia) ltac:(lia) ltac:(lia) ltac:(apply (HsA R); lia) (rep_skipn A cf nE nM nMd _ _ ltac:(lia) Rg) Rs) as (sa2 & Er & Rs2).
      rewrite Er. cbn [bind]. clear Er. eexists. split; [reflexivity|]. split; [apply Rscr|]. split; [exact RE|].
      eapply rep_ext; [exact Rs2|]. intros z x y Hz Hx Hy. cbv beta. rewrite (proj2 (Nat.ltb_lt _ _) Hx), (proj2 (Nat.ltb_lt _ _) Hy). cbn [andb]. unfold sc. rewrite (aIo A).
      unfold GAd, sA. cbn [AderSpec.sum]. ring.
    + eexists. split; [reflexivity|]. split; [apply Rscr|]. split; [exact RE|exact Rs].
  - destruct s1 as ((scr1 & dE1) & sa1). destruct H1 as (L1 & Re1 & Rs1). cbn [bind].
    loop (fun n (s : list T * list (list T)) => rep nE nMd (fst s) (fun z x y => add (add (fE z x y) (GEd nDi x y z))
        (if x <? nM then sum n (fun rm => sum nM (fun j => mul (src A cf srcA rm x j) (snd (q z) rm j y))) else zero)) /\
      length (snd s) = nRm /\ (forall rm, n <= rm < nRm -> rep nM nMd (nth rm (snd s) []) (fA rm)) /\
      (forall rm, rm < n -> rep nM nMd (nth rm (snd s) []) (fun z x y => add (fA rm z x y) (opA (q z) rm x y)))) as s2 E2 H2.
    + lia.
    + cbn [fst snd]. split; [eapply rep_ext; [exact Re1|]; intros z x y Hz Hx Hy; cbn [AderSpec.sum]; destruct (x <? nM); ring|]. split; [auto|]. split; [intros; apply RdA; lia|intros; lia].
    + intros rm (dE2 & dA2) Hrm (Re & LA2 & Old & New). cbn [fst snd] in Re, LA2, Old, New.
      destruct (K1 ltac:(lia)) as (_ & ->). cbn [bind]. rewrite (rd_sized _ _ _ rm Hsrc) by lia. cbn [bind]. rewrite (rd_ok _ _ []) by lia. cbn [bind].
      destruct (run_bc A cf nM nMd nM nE nM nMd nMd nM nM one (nth rm srcA []) (nth rm tA []) dE2 _ _
        ltac:(lia) ltac:(lia) ltac:(lia) ltac:(lia) ltac:(lia) ltac:(lia) ltac:(apply Hsrc; lia) (RtA rm ltac:(lia)) Re) as (e3 & Er & Re3).
      rewrite Er. cbn [bind]. clear Er. rewrite (rd_ok _ _ zero) by lia. cbn [bind]. rewrite (rd_ok _ _ []) by lia. cbn [bind].
      destruct (loop3_ok A cf nM nM nMd (fun i q => z <- rd q i;; x <- rd sa1 i;; y <- rd (nth rm tA []) i;; wr q i (add z (mul (nth rm rfs zero) (sub x y))))
        (fun p v => add v (mul (nth rm rfs zero) (sub (nth p sa1 zero) (nth p (nth rm tA []) zero)))) (nth rm dA2 []) _ ltac:(lia) ltac:(lia) (Old rm ltac:(lia))) as (c & Ec & Rc).
      { intros p c Hp Lc. rewrite (rd_ok _ _ zero) by lia. cbn [bind]. rewrite (rd_ok _ _ zero) by (rewrite (proj1 Rs1); lia). cbn [bind].
        rewrite (rd_ok _ _ zero) by (rewrite (proj1 (RtA rm ltac:(lia))); lia). cbn [bind]. rewrite wr_ok by lia. reflexivity. }
      rewrite Ec. cbn [bind]. clear Ec. rewrite wr_ok by lia. cbn [bind]. eexists. split; [reflexivity|]. cbn [fst snd]. split; [|split; [|split]].
      * eapply rep_ext; [exact Re3|]. intros z x y Hz Hx Hy. cbv beta. rewrite (proj2 (Nat.ltb_lt _ _) Hy), andb_true_r.
        destruct (x <? nM); [|reflexivity]. cbn [AderSpec.sum]. unfold sc. rewrite (aIo A). unfold src. ring.
      * now rewrite length_upd.
      * intros r Hr. rewrite nth_upd_ne by lia. apply Old. lia.
      * intros r Hr. destruct (Nat.eq_dec rm r) as [<-|N].
        -- rewrite nth_upd_eq by lia. eapply rep_ext; [exact Rc|]. intros z x y Hz Hx Hy. cbv beta. rewrite (proj2 (Nat.ltb_lt _ _) Hx), (proj2 (Nat.ltb_lt _ _) Hy). cbn [andb].
           unfold AderSpec.opA, rf. do 3 f_equal; [|apply (RtA rm ltac:(lia)); auto]. rewrite (proj2 Rs1) by auto. assert (R : 0 < nRm) by lia. now rewrite (proj2 (Nat.ltb_lt _ _) R).
        -- rewrite nth_upd_ne by auto. apply New. lia.
    + destruct s2 as (dE2 & dA2). destruct H2 as (Re & LA2 & _ & New). cbn [fst snd] in Re, LA2, New. cbn [bind].
      exists dE2, dA2, scr1. split; [reflexivity|]. split; [auto|]. split; [|split; [auto|exact New]].
      eapply rep_ext; [exact Re|]. intros z x y Hz Hx Hy. cbv beta. unfold AderSpec.opE. fold (GEd nDi x y z). ring.
Qed.

End Int.

(** *** Surface *)
Section Surf.
Context {T : Type}.
Variables (A : alg T) (cf : conf).
Local Notation zero := (aZero A).
Local Notation one := (aOne A).
Local Notation add := (aAdd A).
Local Notation sub := (aSub A).
Local Notation mul := (aMul A).
Local Notation div := (aDiv A).
Local Notation opp := (aOpp A).
Local Notation ofN := (aOfN A).
Local Notation isz := (aIsz A).
Add Ring TR3b : (aRT A).
Local Notation nDi := (nDis (cEl cf)).
Local Notation nMd := (nModes (cEl cf) (cSp cf)).
Local Notation nMdFa := (nModesFa (cEl cf) (cSp cf)).
Local Notation nFa := (nElFas (cEl cf)).
Local Notation ck_ := (nModesCk (cEl cf) (cSp cf)).
Local Notation nE := (nQtsE (cEl cf)).
Local Notation nM := (nQtsM (cEl cf)).
Local Notation nCr := (cCrs cf).
Local Notation nRm := (cRms cf).
Local Notation sum := (sum A).
Local Notation rep := (rep A cf).
Local Notation ent := (ent A).
Local Opaque nModes nModesCk nQtsE nQtsM nDis nModesFa nElFas.

Local Notation faceInt := (faceInt A cf).
Local Notation surf := (surf A cf).
Lemma genSurf_ok : exists ks, genSurf zero one cf = Ok ks /\
  kern ks 0 0 = Ok (kAC one cf nE nMdFa nMd nMd nMdFa nMdFa zero) /\ kern ks 0 1 = Ok (kBC one cf nE nMdFa nE nE nMdFa nMdFa zero) /\
  kern ks 0 2 = Ok (kAC one cf nE nMd nMdFa nMdFa nMd nMd one) /\
  kern ks 1 0 = Ok (kBC one cf nM nMdFa nE nE nMdFa nMdFa zero) /\ kern ks 1 1 = Ok (kAC one cf nM nMd nMdFa nMdFa nMd nMd one).
Proof.
  unfold genSurf. set (a := kAC _ _ nE nMdFa _ _ _ _ _). set (b := kBC _ _ nE _ _ _ _ _ _). set (c := kAC _ _ nE nMd _ _ _ _ _). set (d := kBC _ _ nM _ _ _ _ _ _). set (e := kAC _ _ nM _ _ _ _ _ _).
  assert (V : (vAC a || vBC a = true /\ vAC b || vBC b = true) /\ vAC c || vBC c = true /\ vAC d || vBC d = true /\ vAC e || vBC e = true) by (repeat split). clearbody a b c d e.
  destruct V as ((Va & Vb) & Vc & Vd & Ve). rewrite vAdd by auto. cbn. rewrite vAdd by auto. cbn. rewrite vAdd by auto. cbn. rewrite vAdd by auto. cbn. rewrite vAdd by auto. cbn.
  eexists. split; [reflexivity|]. repeat split.
Qed.

Variables (rfs : list T) (ks : list (list (@vanilla T))) (fIntLN fIntT : list (list T)).
Hypothesis Hrf : length rfs = nRm.
Hypothesis Gen : genSurf zero one cf = Ok ks.
Hypothesis HfT : sized nFa (nMdFa * nMd) fIntT.
Hypothesis HfL : sized (nFa + nFluxN (cEl cf)) (nMd * nMdFa) fIntLN.

Lemma fluxInt_ok id t q o : id < nFa + nFluxN (cEl cf) -> rep nE nMd t q -> length o = nE * nMdFa * nCr ->
  exists o', (k <- kern ks 0 0;; m <- rd fIntLN id;; run_ zero add mul isz k t m o) = Ok o' /\ rep nE nMdFa o' (fun z => faceInt (nth id fIntLN []) (q z)).
Proof.
  intros Hid Rt Lo. destruct genSurf_ok as (ks' & Gen' & K00 & _). rewrite Gen in Gen'. injection Gen' as <-. rewrite K00. cbn [bind].
  rewrite (rd_sized _ _ _ id HfL) by lia. cbn [bind].
  destruct (run_ac A cf nE nMdFa nMd nE nMd nMdFa nMdFa nE nMd zero t (nth id fIntLN []) o _ _
    ltac:(lia) ltac:(lia) ltac:(lia) ltac:(lia) ltac:(lia) ltac:(lia) Rt ltac:(apply HfL; lia) (rep_any A cf _ _ _ Lo)) as (o' & E & R).
  exists o'. split; [exact E|]. eapply rep_ext; [exact R|]. intros z x y Hz Hx Hy. cbv beta. rewrite (proj2 (Nat.ltb_lt _ _) Hx), (proj2 (Nat.ltb_lt _ _) Hy). cbn [andb].
  unfold sc. rewrite (aIz A). unfold AderSpec.faceInt. ring.
Qed.

(** application of the flux solvers and of the second integration *)
Lemma fluxE_ok F q fi fs fa scr1 d fd : rep nE nMdFa fi (fun z => faceInt F (q z)) -> length fs = nE * nE -> fa < nFa -> length scr1 = nE * nMdFa * nCr -> rep nE nMd d fd ->
  exists scr1' d', (k <- kern ks 0 1;; s <- run_ zero add mul isz k fs fi scr1;; k <- kern ks 0 2;; m <- rd fIntT fa;; d <- run_ zero add mul isz k s m d;; Ok (s, d)) = Ok (scr1', d') /\
    length scr1' = nE * nMdFa * nCr /\ rep nE nMd d' (fun z x y => add (fd z x y) (surf fs F (nth fa fIntT []) (q z) x y)).
Proof.
  intros Rf Lf Hfa L1 Rd. destruct genSurf_ok as (ks' & Gen' & _ & K01 & K02 & _). rewrite Gen in Gen'. injection Gen' as <-. rewrite K01. cbn [bind].
  destruct (run_bc A cf nE nMdFa nE nE nE nMdFa nMdFa nE nE zero fs fi scr1 _ _
    ltac:(lia) ltac:(lia) ltac:(lia) ltac:(lia) ltac:(lia) ltac:(lia) Lf Rf (rep_any A cf _ _ _ L1)) as (s & E & R). rewrite E. cbn [bind]. clear E. rewrite K02. cbn [bind].
  rewrite (rd_sized _ _ _ fa HfT) by lia. cbn [bind].
  destruct (run_ac A cf nE nMd nMdFa nE nMdFa nMd nMd nE nMdFa one s (nth fa fIntT []) d _ _
    ltac:(lia) ltac:(lia) ltac:(lia) ltac:(lia) ltac:(lia) ltac:(lia) R ltac:(apply HfT; lia) Rd) as (d' & E & R'). rewrite E. cbn [bind]. clear E.
  exists s, d'. split; [reflexivity|]. split; [apply R|]. eapply rep_ext; [exact R'|]. intros z x y Hz Hx Hy. cbv beta. rewrite (proj2 (Nat.ltb_lt _ _) Hx), (proj2 (Nat.ltb_lt _ _) Hy). cbn [andb].
  unfold sc. rewrite (aIo A), (aIz A). unfold AderSpec.surf. rewrite (sum_ext A nMdFa _ (fun m => mul (sum nE (fun j => mul (ent nE fs x j) (faceInt F (q z) j m))) (ent nMd (nth fa fIntT []) m y))); [ring|].
  intros m Hm. rewrite (proj2 (Nat.ltb_lt _ _) Hm). cbn [andb]. ring.
Qed.

Lemma fluxA_ok F q fi fs fa scr1 d fd : rep nE nMdFa fi (fun z => faceInt F (q z)) -> length fs = nM * nE -> fa < nFa -> length scr1 = nE * nMdFa * nCr -> rep nM nMd d fd ->
  exists scr1' d', (k <- kern ks 1 0;; s <- run_ zero add mul isz k fs fi scr1;; k <- kern ks 1 1;; m <- rd fIntT fa;; d <- run_ zero add mul isz k s m d;; Ok (s, d)) = Ok (scr1', d') /\
    length scr1' = nE * nMdFa * nCr /\ rep nM nMd d' (fun z x y => add (fd z x y) (surf fs F (nth fa fIntT []) (q z) x y)).
Proof.
  intros Rf Lf Hfa L1 Rd. destruct genSurf_ok as (ks' & Gen' & _ & _ & _ & K10 & K11). rewrite Gen in Gen'. injection Gen' as <-. rewrite K10. cbn [bind].
  assert (NM := nM_nE cf).
  destruct (run_bc A cf nM nMdFa nE nE nE nMdFa nMdFa nM nE zero fs fi scr1 _ _
    ltac:(lia) ltac:(lia) ltac:(lia) ltac:(lia) ltac:(lia) ltac:(lia) Lf Rf (rep_any A cf _ _ _ L1)) as (s & E & R). rewrite E. cbn [bind]. clear E. rewrite K11. cbn [bind].
  rewrite (rd_sized _ _ _ fa HfT) by lia. cbn [bind].
  destruct (run_ac A cf nM nMd nMdFa nM nMdFa nMd nMd nE nMdFa one s (nth fa fIntT []) d _ _
    ltac:(lia) ltac:(lia) ltac:(lia) ltac:(lia) ltac:(lia) ltac:(lia) R ltac:(apply HfT; lia) Rd) as (d' & E & R'). rewrite E. cbn [bind]. clear E.
  exists s, d'. split; [reflexivity|]. split; [apply R|]. eapply rep_ext; [exact R'|]. intros z x y Hz Hx Hy. cbv beta. rewrite (proj2 (Nat.ltb_lt _ _) Hx), (proj2 (Nat.ltb_lt _ _) Hy). cbn [andb].
  unfold sc. rewrite (aIo A), (aIz A). unfold AderSpec.surf. rewrite (sum_ext A nMdFa _ (fun m => mul (sum nE (fun j => mul (ent nE fs x j) (faceInt F (q z) j m))) (ent nMd (nth fa fIntT []) m y))); [ring|].
  intros m Hm. rewrite (proj2 (Nat.ltb_lt _ _) Hm). cbn [andb]. ring.
Qed.

Lemma scatter_ok up dofsA f fA : rep nM nMd up f -> length dofsA = nRm -> (forall rm, rm < nRm -> rep nM nMd (nth rm dofsA []) (fA rm)) ->
  exists dofsA', scatterUpdateA add mul cf rfs up dofsA = Ok dofsA' /\ length dofsA' = nRm /\
    forall rm, rm < nRm -> rep nM nMd (nth rm dofsA' []) (fun z x y => add (fA rm z x y) (mul (rf A rfs rm) (f z x y))).
Proof.
  intros Ru L R. unfold scatterUpdateA.
  loop (fun n s => length s = nRm /\ (forall rm, n <= rm < nRm -> rep nM nMd (nth rm s []) (fA rm)) /\
    forall rm, rm < n -> rep nM nMd (nth rm s []) (fun z x y => add (fA rm z x y) (mul (rf A rfs rm) (f z x y)))) as s E H.
  - lia.
  - split; [auto|]. split; [intros; apply R; lia|intros; lia].
  - intros rm s Hrm (Ls & Old & New). rewrite (rd_ok _ _ zero) by lia. cbn [bind]. rewrite (rd_ok _ _ []) by lia. cbn [bind].
    destruct (axpyE_ok A cf nM nMd (nth rm rfs zero) up (nth rm s []) _ _ ltac:(lia) (Old rm ltac:(lia)) Ru) as (o & Eo & Ro). rewrite Eo. cbn [bind]. rewrite wr_ok by lia.
    eexists. split; [reflexivity|]. split; [now rewrite length_upd|]. split.
    + intros r Hr. rewrite nth_upd_ne by lia. apply Old. lia.
    + intros r Hr. destruct (Nat.eq_dec rm r) as [<-|N].
      * rewrite nth_upd_eq by lia. eapply rep_ext; [exact Ro|]. intros z x y Hz Hx Hy. cbv beta. rewrite (proj2 (Nat.ltb_lt _ _) Hy). reflexivity.
      * rewrite nth_upd_ne by auto. apply New. lia.
  - exists s. split; [reflexivity|]. split; [apply H|]. apply H.
Qed.

Lemma surfLocal_ok fsE fsA tE junk dofsE dofsA scr0 scr1 q fE fA : sized nFa (nE * nE) fsE -> (0 < nRm -> sized nFa (nM * nE) fsA) ->
  length junk = nM * nMd * nCr -> length scr0 = nE * nMdFa * nCr -> length scr1 = nE * nMdFa * nCr ->
  rep nE nMd tE q -> rep nE nMd dofsE fE -> length dofsA = nRm -> (forall rm, rm < nRm -> rep nM nMd (nth rm dofsA []) (fA rm)) ->
  exists dofsE' dofsA' scr0' scr1', surfLocal zero add mul isz cf ks fIntLN fIntT rfs fsE fsA tE junk dofsE dofsA scr0 scr1 = Ok (dofsE', dofsA', scr0', scr1') /\
    length scr0' = nE * nMdFa * nCr /\ length scr1' = nE * nMdFa * nCr /\
    rep nE nMd dofsE' (fun z x y => add (fE z x y) (sum nFa (fun fa => surf (nth fa fsE []) (nth fa fIntLN []) (nth fa fIntT []) (q z) x y))) /\ length dofsA' = nRm /\
    (forall rm, rm < nRm -> rep nM nMd (nth rm dofsA' [])
      (fun z x y => add (fA rm z x y) (mul (rf A rfs rm) (sum nFa (fun fa => surf (nth fa fsA []) (nth fa fIntLN []) (nth fa fIntT []) (q z) x y))))).
Proof.
  intros Sf SfA Lj L0 L1 Rt Rd LdA RdA. unfold surfLocal. destruct (zeroE_ok A cf nM junk Lj) as (s0 & E0 & R0). rewrite E0. cbn [bind]. clear E0.
  loop (fun n (s : list T * list T * list T * list T) => let '(scr0, scr1, d, u) := s in length scr0 = nE * nMdFa * nCr /\ length scr1 = nE * nMdFa * nCr /\
    rep nE nMd d (fun z x y => add (fE z x y) (sum n (fun fa => surf (nth fa fsE []) (nth fa fIntLN []) (nth fa fIntT []) (q z) x y))) /\
    rep nM nMd u (fun z x y => if 0 <? nRm then sum n (fun fa => surf (nth fa fsA []) (nth fa fIntLN []) (nth fa fIntT []) (q z) x y) else zero)) as s E H.
  - lia.
  - split; [auto|]. split; [auto|]. split; [eapply rep_ext; [exact Rd|]; intros; cbn [AderSpec.sum]; ring|]. eapply rep_ext; [exact R0|]. intros. cbv beta. cbn [AderSpec.sum]. destruct (0 <? nRm); reflexivity.
  - intros fa (((c0 & c1) & d) & u) Hfa (Lc0 & Lc1 & R1 & R2).
    destruct (fluxInt_ok fa tE q c0 ltac:(lia) Rt Lc0) as (c0' & E1 & Rf). destruct (kern ks 0 0) as [k00|]; [|discriminate]. cbn [bind] in E1 |- *.
    destruct (rd fIntLN fa) as [m|]; [|discriminate]. cbn [bind] in E1 |- *. rewrite E1. cbn [bind]. clear E1 k00 m.
    destruct (fluxE_ok (nth fa fIntLN []) q c0' (nth fa fsE []) fa c1 d _ Rf ltac:(apply Sf; lia) ltac:(lia) Lc1 R1) as (c1' & d' & E1 & Lc1' & R1').
    rewrite (rd_sized _ _ _ fa Sf) by lia. cbn [bind]. destruct (kern ks 0 1) as [k01|]; [|discriminate]. cbn [bind] in E1 |- *.
    destruct (run_ zero add mul isz k01 (nth fa fsE []) c0' c1) as [c1x|]; [|discriminate]. cbn [bind] in E1 |- *.
    destruct (kern ks 0 2) as [k02|]; [|discriminate]. cbn [bind] in E1 |- *. try rewrite (rd_sized _ _ _ fa HfT) in E1 by lia; try rewrite (rd_sized _ _ _ fa HfT) by lia. cbn [bind] in E1 |- *.
    destruct (run_ zero add mul isz k02 c1x (nth fa fIntT []) d) as [dx|]; [|discriminate]. cbn [bind] in E1 |- *. injection E1 as -> ->.
    destruct (0 <? nRm) eqn:R.
    + apply Nat.ltb_lt in R. destruct (fluxA_ok (nth fa fIntLN []) q c0' (nth fa fsA []) fa c1' u _ Rf ltac:(apply (SfA R); lia) ltac:(lia) Lc1' R2) as (c2 & u' & E1 & Lc2 & R2').
      rewrite (rd_sized _ _ _ fa (SfA R)) by lia. cbn [bind]. destruct (kern ks 1 0) as [k10|]; [|discriminate]. cbn [bind] in E1 |- *.
      destruct (run_ zero add mul isz k10 (nth fa fsA []) c0' c1') as [c2x|]; [|discriminate]. cbn [bind] in E1 |- *.
      destruct (kern ks 1 1) as [k11|]; [|discriminate]. cbn [bind] in E1 |- *. try rewrite (rd_sized _ _ _ fa HfT) in E1 by lia; try rewrite (rd_sized _ _ _ fa HfT) by lia. cbn [bind] in E1 |- *.
      destruct (run_ zero add mul isz k11 c2x (nth fa fIntT []) u) as [ux|]; [|discriminate]. cbn [bind] in E1 |- *. injection E1 as -> ->.
      eexists. split; [reflexivity|]. split; [apply Rf|]. split; [auto|]. split.
      * eapply rep_ext; [exact R1'|]. intros. cbn [AderSpec.sum]. ring.
      * eapply rep_ext; [exact R2'|]. intros. cbn [AderSpec.sum]. reflexivity.
    + eexists. split; [reflexivity|]. split; [apply Rf|]. split; [auto|]. split; [|exact R2].
      eapply rep_ext; [exact R1'|]. intros. cbn [AderSpec.sum]. ring.
  - destruct s as (((c0 & c1) & d) & u). destruct H as (Lc0 & Lc1 & R1 & R2). cbn [bind]. destruct (0 <? nRm) eqn:R.
    + destruct (scatter_ok u dofsA _ fA R2 LdA RdA) as (dA' & E1 & LA & RA). rewrite E1. cbn [bind]. exists d, dA', c0, c1. split; [reflexivity|]. auto.
    + cbn [bind]. exists d, dofsA, c0, c1. split; [reflexivity|]. split; [auto|]. split; [auto|]. split; [exact R1|]. split; [auto|]. apply Nat.ltb_ge in R. intros; lia.
Qed.

Definition fluxId (fa : nat) (vId : option nat) (fId : nat) : nat := match vId with Some v => nFa + (v * nFa + fId) | None => fa end.

Lemma neighFluxInt_ok fa vId fId t q o : fluxId fa vId fId < nFa + nFluxN (cEl cf) -> rep nE nMd t q -> length o = nE * nMdFa * nCr ->
  exists o', neighFluxInt zero add mul isz cf ks fIntLN fa vId fId t o = Ok o' /\ rep nE nMdFa o' (fun z => faceInt (nth (fluxId fa vId fId) fIntLN []) (q z)).
Proof. intros Hid Rt Lo. apply (fluxInt_ok (fluxId fa vId fId) t q o Hid Rt Lo). Qed.

Lemma surfNeigh_ok fa vId fId fsE fsA t pre d u scr0 scr1 q fE fU : fa < nFa -> fluxId fa vId fId < nFa + nFluxN (cEl cf) ->
  length fsE = nE * nE -> (0 < nRm -> length fsA = nM * nE) -> length scr0 = nE * nMdFa * nCr -> length scr1 = nE * nMdFa * nCr ->
  match pre with None => rep nE nMd t q | Some p => rep nE nMdFa p (fun z => faceInt (nth (fluxId fa vId fId) fIntLN []) (q z)) end ->
  rep nE nMd d fE -> rep nM nMd u fU ->
  exists d' u' scr0' scr1', surfNeigh zero add mul isz cf ks fIntLN fIntT fa vId fId fsE fsA t pre d u scr0 scr1 = Ok (d', u', scr0', scr1') /\
    length scr0' = nE * nMdFa * nCr /\ length scr1' = nE * nMdFa * nCr /\
    rep nE nMd d' (fun z x y => add (fE z x y) (surf fsE (nth (fluxId fa vId fId) fIntLN []) (nth fa fIntT []) (q z) x y)) /\
    rep nM nMd u' (fun z x y => if 0 <? nRm then add (fU z x y) (surf fsA (nth (fluxId fa vId fId) fIntLN []) (nth fa fIntT []) (q z) x y) else fU z x y).
Proof.
  intros Hfa Hid Lf LfA L0 L1 Pre Rd Ru. unfold surfNeigh. set (F := nth (fluxId fa vId fId) fIntLN []) in *.
  assert (G : exists fi c0, match pre with None => o <- neighFluxInt zero add mul isz cf ks fIntLN fa vId fId t scr0;; Ok (o, o) | Some p => Ok (p, scr0) end = Ok (fi, c0) /\
    length c0 = nE * nMdFa * nCr /\ rep nE nMdFa fi (fun z => faceInt F (q z))).
  { destruct pre as [p|]; [exists p, scr0; auto|]. destruct (neighFluxInt_ok fa vId fId t q scr0 Hid Pre L0) as (o & E & R). rewrite E. cbn [bind]. exists o, o. split; [auto|]. split; [apply R|exact R]. }
  destruct G as (fi & c0 & E & Lc0 & Rf). rewrite E. cbn [bind]. clear E.
  destruct (fluxE_ok F q fi fsE fa scr1 d _ Rf Lf Hfa L1 Rd) as (c1' & d' & E1 & Lc1' & R1').
  destruct (kern ks 0 1) as [k01|]; [|discriminate]. cbn [bind] in E1 |- *.
  destruct (run_ zero add mul isz k01 fsE fi scr1) as [c1x|]; [|discriminate]. cbn [bind] in E1 |- *.
  destruct (kern ks 0 2) as [k02|]; [|discriminate]. cbn [bind] in E1 |- *. try rewrite (rd_sized _ _ _ fa HfT) in E1 by lia; try rewrite (rd_sized _ _ _ fa HfT) by lia. cbn [bind] in E1 |- *.
  destruct (run_ zero add mul isz k02 c1x (nth fa fIntT []) d) as [dx|]; [|discriminate]. cbn [bind] in E1 |- *. injection E1 as -> ->.
  destruct (0 <? nRm) eqn:R.
  - apply Nat.ltb_lt in R. destruct (fluxA_ok F q fi fsA fa c1' u _ Rf (LfA R) Hfa Lc1' Ru) as (c2 & u' & E1 & Lc2 & R2').
    destruct (kern ks 1 0) as [k10|]; [|discriminate]. cbn [bind] in E1 |- *.
    destruct (run_ zero add mul isz k10 fsA fi c1') as [c2x|]; [|discriminate]. cbn [bind] in E1 |- *.
    destruct (kern ks 1 1) as [k11|]; [|discriminate]. cbn [bind] in E1 |- *. try rewrite (rd_sized _ _ _ fa HfT) in E1 by lia; try rewrite (rd_sized _ _ _ fa HfT) by lia. cbn [bind] in E1 |- *.
    destruct (run_ zero add mul isz k11 c2x (nth fa fIntT []) u) as [ux|]; [|discriminate]. cbn [bind] in E1 |- *. injection E1 as -> ->.
    exists d', u', c0, c2. split; [reflexivity|]. auto.
  - exists d', u, c0, c1'. split; [reflexivity|]. auto.
Qed.

End Surf.
