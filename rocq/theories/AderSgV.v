(** The kernels for single forward simulations compute the results of the operator of the element. *)
From Coq Require Import Ring.
From Verif Require Import Util MeshConn MatMul Props_Mat Ader AderSpec AderV AderCk AderInt AderGen AderGenV MmXsmm XsmmSpec AderSg.

Section SgV.
Context {T : Type}.
Variables (A : alg T) (cf : conf) (L : xsmm T).
Hypothesis Spec : dense A (xGemm L).
Local Notation zero := (aZero A).
Local Notation one := (aOne A).
Local Notation add := (aAdd A).
Local Notation sub := (aSub A).
Local Notation mul := (aMul A).
Local Notation div := (aDiv A).
Local Notation opp := (aOpp A).
Local Notation ofN := (aOfN A).
Local Notation isz := (aIsz A).
Add Ring TRs : (aRT A).
Local Notation nDi := (nDis (cEl cf)).
Local Notation nMd := (nModes (cEl cf) (cSp cf)).
Local Notation nMdFa := (nModesFa (cEl cf) (cSp cf)).
Local Notation nFa := (nElFas (cEl cf)).
Local Notation ck_ := (nModesCk (cEl cf) (cSp cf)).
Local Notation nE := (nQtsE (cEl cf)).
Local Notation nM := (nQtsM (cEl cf)).
Local Notation nCr := (cCrs cf).
Local Notation nRm := (cRms cf).
Local Notation sum := (sum A).
Local Notation rep := (rep A cf).
Local Notation ent := (ent A).
Hypothesis Cr : nCr = 1.

(** products as functions of quantities and modes: [n] quantities, [m] modes *)
Lemma gemm_left m n k ldA ldB ldC acc a b c ka nb nc fb fc : m <= ldA -> k <= ka -> k <= ldB -> n <= nb -> m <= ldC -> n <= nc ->
  length a = ka * ldA -> rep nb ldB b fb -> rep nc ldC c fc ->
  exists c', xGemm L (Build_gdesc m n k ldA ldB ldC acc) a b c = Ok c' /\
    rep nc ldC c' (fun z x y => if (x <? n) && (y <? m) then add (if acc then fc z x y else zero) (sum k (fun l => mul (fb z x l) (ent ldA a l y))) else fc z x y).
Proof using Spec Cr.
  intros H1 H2 H3 H4 H5 H6 La (Lb & Vb) (Lc & Vc). rewrite Cr in Lb, Lc.
  destruct (Spec (Build_gdesc m n k ldA ldB ldC acc) a b c) as (c' & E & L' & V & U); cbn [gM gN gK gLdA gLdB gLdC gAcc] in *.
  - auto.
  - intros i l Hi Hl. rewrite La. nia.
  - intros l j Hl Hj. rewrite Lb. nia.
  - intros i j Hi Hj. rewrite Lc. nia.
  - exists c'. split; [exact E|]. split; [rewrite Cr; lia|]. intros z x y Hz Hx Hy. assert (z = 0) by lia. subst z.
    assert (P : forall ld x y, pos nCr ld x y 0 = x * ld + y) by (intros; unfold pos; rewrite Cr; lia).
    assert (Vc' : forall x y, x < nc -> y < ldC -> nth (x * ldC + y) c zero = fc 0 x y) by (intros; rewrite <- P; apply Vc; lia).
    rewrite P. destruct (Nat.ltb_spec x n) as [X|X]; [destruct (Nat.ltb_spec y m) as [Y|Y]|]; cbn [andb].
    + rewrite V by auto. unfold kept. cbn [gAcc]. rewrite Vc' by auto. f_equal. apply (sum_ext A). intros l Hl. unfold AderSpec.ent. rewrite <- (P ldB x l). rewrite Vb by lia. ring.
    + rewrite U; [apply Vc'; auto|]. intros i j Hi Hj E'. assert (x = j) by nia. subst. nia.
    + rewrite U; [apply Vc'; auto|]. intros i j Hi Hj E'. assert (x = j) by nia. subst. nia.
Qed.
Lemma gemm_right m n k ldA ldB ldC acc a b c na kb nc fa fc : m <= ldA -> k <= na -> k <= ldB -> n <= kb -> m <= ldC -> n <= nc ->
  rep na ldA a fa -> length b = kb * ldB -> rep nc ldC c fc ->
  exists c', xGemm L (Build_gdesc m n k ldA ldB ldC acc) a b c = Ok c' /\
    rep nc ldC c' (fun z x y => if (x <? n) && (y <? m) then add (if acc then fc z x y else zero) (sum k (fun l => mul (ent ldB b x l) (fa z l y))) else fc z x y).
Proof using Spec Cr.
  intros H1 H2 H3 H4 H5 H6 (La & Va) Lb (Lc & Vc). rewrite Cr in La, Lc.
  destruct (Spec (Build_gdesc m n k ldA ldB ldC acc) a b c) as (c' & E & L' & V & U); cbn [gM gN gK gLdA gLdB gLdC gAcc] in *.
  - auto.
  - intros i l Hi Hl. rewrite La. nia.
  - intros l j Hl Hj. rewrite Lb. nia.
  - intros i j Hi Hj. rewrite Lc. nia.
  - exists c'. split; [exact E|]. split; [rewrite Cr; lia|]. intros z x y Hz Hx Hy. assert (z = 0) by lia. subst z.
    assert (P : forall ld x y, pos nCr ld x y 0 = x * ld + y) by (intros; unfold pos; rewrite Cr; lia).
    assert (Vc' : forall x y, x < nc -> y < ldC -> nth (x * ldC + y) c zero = fc 0 x y) by (intros; rewrite <- P; apply Vc; lia).
    rewrite P. destruct (Nat.ltb_spec x n) as [X|X]; [destruct (Nat.ltb_spec y m) as [Y|Y]|]; cbn [andb].
    + rewrite V by auto. unfold kept. cbn [gAcc]. rewrite Vc' by auto. f_equal. apply (sum_ext A). intros l Hl. unfold AderSpec.ent. rewrite <- (P ldA l y). rewrite Va by lia. ring.
    + rewrite U; [apply Vc'; auto|]. intros i j Hi Hj E'. assert (x = j) by nia. subst. nia.
    + rewrite U; [apply Vc'; auto|]. intros i j Hi Hj E'. assert (x = j) by nia. subst. nia.
Qed.

Local Opaque nModes nModesCk nQtsE nQtsM nDis nModesFa nElFas.

Local Notation d0 de := (Build_gdesc (ck_ de) nE (ck_ (de - 1)) nMd nMd nMd false).
Local Notation d1 de := (Build_gdesc (ck_ de) nE nE nMd nE nMd true).
Local Notation d2 := (Build_gdesc (ck_ 1) nM nDi nMd nDi nMd true).
Local Notation d3 := (Build_gdesc nMd nM nM nMd nM nMd true).

Lemma genTimeS_ok : exists ks, genTimeS cf = Ok ks /\
  (forall de, 1 <= de < cTi cf -> xKern ks 0 (de - 1) = Ok (d0 de) /\ xKern ks 1 (de - 1) = Ok (d1 de)) /\
  (0 < nRm -> 1 < cTi cf -> xKern ks 2 0 = Ok d2 /\ xKern ks 2 1 = Ok d3).
Proof.
  clear. unfold genTimeS. assert (Rb : 0 < nRm -> (0 <? nRm) = true) by apply Nat.ltb_lt. generalize dependent (0 <? nRm). intros rb Rb.
  destruct (Nat.le_gt_cases (cTi cf) 1) as [HT|HT].
  - rewrite for_empty by auto. exists []. split; [reflexivity|]. split; [intros; lia|intros; lia].
  - set (g0 := fun de => d0 de). set (g1 := fun de => d1 de).
    set (I := fun de (ks : list (list gdesc)) => if de =? 1 then ks = [] else exists t, ks = [map g0 (seq 1 (de - 1)); map g1 (seq 1 (de - 1))] ++ t /\
      if rb then exists u, t = [d2 :: d3 :: u] else t = []).
    loop I as ks E H.
    + lia.
    + reflexivity.
    + intros de ks Hde H. unfold I in H. destruct (Nat.eqb_spec de 1) as [->|D1].
      * subst ks. destruct rb; cbn; unfold I; cbn; eexists; (split; [reflexivity|]); eexists; (split; [reflexivity|]); [exists []; reflexivity|reflexivity].
      * destruct H as (t & -> & Ht). destruct rb.
        -- destruct Ht as (u & ->). eexists. split; [cbn; reflexivity|]. unfold I. destruct (Nat.eqb_spec (S de) 1); [lia|]. replace (S de - 1) with (S (de - 1)) by lia. rewrite seq_snoc, !map_app. cbn [map].
           replace (1 + (de - 1)) with de by lia. eexists. split; [reflexivity|]. eexists. cbn. rewrite <- ?app_assoc. reflexivity.
        -- subst t. eexists. split; [cbn; reflexivity|]. unfold I. destruct (Nat.eqb_spec (S de) 1); [lia|]. replace (S de - 1) with (S (de - 1)) by lia. rewrite seq_snoc, !map_app. cbn [map].
           replace (1 + (de - 1)) with de by lia. eexists. split; [reflexivity|]. reflexivity.
    + unfold I in H. destruct (Nat.eqb_spec (cTi cf) 1); [lia|]. destruct H as (t & -> & Ht).
      eexists. split; [reflexivity|]. split.
      * intros de Hde. unfold xKern, rd. cbn [nth_error app bind]. split; erewrite map_nth_error; try reflexivity; rewrite nth_error_seq by lia; f_equal; lia.
      * intros R _. rewrite (Rb R) in Ht. destruct Ht as (u & ->). split; reflexivity.
Qed.

(** *** Time prediction *)
Section Time.
Variables (ks : list (list gdesc)) (stiffT : list (list T)) (rfs : list T) (dT : T) (starE starA srcA : list (list T)) (q0 : nat -> @state T).
Hypothesis Gen : genTimeS cf = Ok ks.
Hypothesis Hst : sized nDi (nMd * nMd) stiffT.
Hypothesis HsE : sized nDi (nE * nE) starE.
Hypothesis HsA : 0 < nRm -> sized nDi (nM * nDi) starA.
Hypothesis Hsrc : sized nRm (nM * nM) srcA.
Hypothesis Hrf : length rfs = nRm.
Hypothesis Low : lowers A cf (K A cf stiffT).

Lemma ckSingle_ok dofsE dofsA junk scr dE dA tE tA : 1 <= cTi cf -> length junk = nM * nMd * nCr -> length scr = nE * nMd * nCr -> goodE cf dE -> goodA cf dA ->
  length tE = nE * nMd * nCr -> sized nRm (nM * nMd * nCr) tA -> length dofsA = nRm ->
  rep nE nMd dofsE (fun z => fst (q0 z)) -> (forall rm, rm < nRm -> rep nM nMd (nth rm dofsA []) (fun z => snd (q0 z) rm)) ->
  exists s, ckSingle zero add mul div ofN L cf ks (storeStiffT opp cf stiffT) rfs dT starE starA srcA dofsE dofsA junk scr dE dA tE tA = Ok s /\
    ckInv A cf stiffT rfs dT starE starA srcA q0 (cTi cf) s.
Proof.
  destruct genTimeS_ok as (ks' & Gen' & K01 & K2). rewrite Gen in Gen'. injection Gen' as <-.
  assert (NM := nM_nE cf). assert (Cn1 := ck_le (cEl cf) (cSp cf) 1).
  apply ckG_ok; auto.
  - intros de di p scr0 Hde Hdi Rp Ls.
    assert (Hre : 1 <= re cf de < cTi cf) by (unfold re; destruct (nRm =? 0); lia).
    assert (Ck1 := ck_le (cEl cf) (cSp cf) (re cf de)). assert (Ck0 := ck_le (cEl cf) (cSp cf) (re cf de - 1)).
    destruct (K01 _ Hre) as (Kk0 & Kk1). unfold sStiffT. rewrite Kk0. cbn [bind]. rewrite (rd_stiff A cf stiffT rfs starA Hst HsA Hrf q0) by lia. cbn [bind].
    destruct (gemm_left (ck_ (re cf de)) nE (ck_ (re cf de - 1)) nMd nMd nMd false (map opp (nth di stiffT [])) p scr0 nMd nE nE _ _
      ltac:(lia) ltac:(lia) ltac:(lia) ltac:(lia) ltac:(lia) ltac:(lia) ltac:(rewrite map_length; apply Hst; lia) Rp (rep_any A cf _ _ _ Ls)) as (scr2 & Er & Rscr).
    rewrite Er. exists scr2. split; [reflexivity|]. split; [apply Rscr|].
    assert (Rg : forall z x y, z < nCr -> x < nE -> y < ck_ (re cf de) -> y < nMd -> nth (pos nCr nMd x y z) scr2 zero = AderSpec.grad A cf (K A cf stiffT) di (fst (pow A cf add (K A cf stiffT) (sE A cf starE) (sA A cf starA) (src A cf srcA) (rf A rfs) (de - 1) (q0 z))) x y).
    { intros z x y Hz Hx Hy Hy'. rewrite (proj2 Rscr) by auto. cbv beta. rewrite (grad_trunc A cf stiffT rfs starE starA srcA HsA Hrf Low) by (auto; lia).
      rewrite (proj2 (Nat.ltb_lt _ _) Hx), (proj2 (Nat.ltb_lt _ _) Hy). cbn [andb].
      rewrite (sum_ext A _ _ (fun l => mul (Ed A cf stiffT rfs starE starA srcA q0 (de - 1) z x l) (K A cf stiffT di l y))); [ring|]. intros l Hl. now rewrite (ent_stiff A cf). }
    split.
    + intros e fe Re. unfold sStarE. rewrite Kk1. cbn [bind]. rewrite (rd_sized _ _ _ di HsE) by lia. cbn [bind].
      destruct (gemm_right (ck_ (re cf de)) nE nE nMd nE nMd true scr2 (nth di starE []) e nE nE nE _ _
        ltac:(lia) ltac:(lia) ltac:(lia) ltac:(lia) ltac:(lia) ltac:(lia) (rep_any A cf _ _ _ (proj1 Rscr)) ltac:(apply HsE; lia) Re) as (e2 & Er2 & Re2).
      rewrite Er2. exists e2. split; [reflexivity|]. eapply rep_ext; [exact Re2|]. intros z x y Hz Hx Hy. cbv beta. rewrite (proj2 (Nat.ltb_lt _ _) Hx). cbn [andb].
      destruct (Nat.ltb_spec y (ck_ (re cf de))) as [C|C].
      * f_equal. apply (sum_ext A). intros j Hj. f_equal. apply Rg; auto.
      * rewrite (sum_0 A nE); [ring|]. intros j Hj. rewrite (grad_trunc A cf stiffT rfs starE starA srcA HsA Hrf Low) by (auto; lia). destruct (Nat.ltb_spec y (ck_ (re cf de))); [lia|]. ring.
    + intros R sa fs Rs. destruct (K2 R ltac:(lia)) as (Kk2 & _). unfold sStarA. rewrite Kk2. cbn [bind]. rewrite (rd_sized _ _ _ di (HsA R)) by lia. cbn [bind].
      destruct (gemm_right (ck_ 1) nM nDi nMd nDi nMd true (skipn (nM * nMd * nCr) scr2) (nth di starA []) sa (nE - nM) nM nM _ _
        ltac:(lia) ltac:(lia) ltac:(lia) ltac:(lia) ltac:(lia) ltac:(lia) (rep_skipn A cf nE nM nMd _ _ ltac:(lia) (rep_any A cf _ _ _ (proj1 Rscr))) ltac:(apply (HsA R); lia) Rs) as (sa2 & Er2 & Rs2).
      rewrite Er2. exists sa2. split; [reflexivity|]. assert (R1 : re cf de = 1) by (unfold re; destruct (Nat.eqb_spec nRm 0); lia).
      eapply rep_ext; [exact Rs2|]. intros z x y Hz Hx Hy. cbv beta. rewrite (proj2 (Nat.ltb_lt _ _) Hx). cbn [andb]. destruct (Nat.ltb_spec y (ck_ 1)) as [C|C].
      * f_equal. apply (sum_ext A). intros j Hj. f_equal. apply Rg; auto; [lia|]. now rewrite R1.
      * rewrite (sum_0 A nDi); [ring|]. intros j Hj. rewrite (grad_trunc A cf stiffT rfs starE starA srcA HsA Hrf Low) by (auto; lia). rewrite R1. destruct (Nat.ltb_spec y (ck_ 1)); [lia|]. ring.
  - intros HT rm p e f fe Hrm Rp Re. destruct (K2 ltac:(lia) HT) as (_ & Kk). unfold sSrc. rewrite Kk. cbn [bind]. rewrite (rd_sized _ _ _ rm Hsrc) by lia. cbn [bind].
    destruct (gemm_right nMd nM nM nMd nM nMd true p (nth rm srcA []) e nM nM nE _ _
      ltac:(lia) ltac:(lia) ltac:(lia) ltac:(lia) ltac:(lia) ltac:(lia) Rp ltac:(apply Hsrc; lia) Re) as (e2 & Er2 & Re2).
    rewrite Er2. exists e2. split; [reflexivity|]. eapply rep_ext; [exact Re2|]. intros z x y Hz Hx Hy. cbv beta. rewrite (proj2 (Nat.ltb_lt _ _) Hy), andb_true_r.
    destruct (x <? nM); [reflexivity|ring].
Qed.
End Time.

(** *** Volume *)
Section Vol.
Variables (ks : list (list gdesc)) (rfs : list T) (starE starA srcA stiff : list (list T)).
Hypothesis Gen : genVolS cf = Ok ks.
Hypothesis Hst : sized nDi (nMd * nMd) stiff.
Hypothesis HsE : sized nDi (nE * nE) starE.
Hypothesis HsA : 0 < nRm -> sized nDi (nM * nDi) starA.
Hypothesis Hsrc : sized nRm (nM * nM) srcA.
Hypothesis Hrf : length rfs = nRm.
Local Notation Kv := (Kv A cf stiff).
Hypothesis LowV : forall di l y, di < nDi -> ck_ 1 <= l < nMd -> y < nMd -> Kv di l y = zero.
Local Notation opE := (opE A cf Kv (sE A cf starE) (src A cf srcA)).
Local Notation opA := (opA A cf sub Kv (sA A cf starA) (rf A rfs)).
Local Notation grad := (grad A cf Kv).

Lemma genVolS_ok : xKern ks 0 0 = Ok (Build_gdesc nMd nE (ck_ 1) nMd nMd nMd false) /\ xKern ks 0 1 = Ok (Build_gdesc nMd nE nE nMd nE nMd true) /\
  (0 < nRm -> xKern ks 1 0 = Ok (Build_gdesc nMd nM nDi nMd nDi nMd true) /\ xKern ks 1 1 = Ok (Build_gdesc nMd nM nM nMd nM nMd true)).
Proof.
  revert Gen. clear. unfold genVolS. assert (Rb : 0 < nRm -> (0 <? nRm) = true) by apply Nat.ltb_lt. generalize dependent (0 <? nRm). intros rb Rb.
  destruct rb; cbn; intros E; injection E as <-; repeat split; specialize (Rb ltac:(assumption)); discriminate.
Qed.

Lemma volSingle_ok tE tA junk dofsE dofsA scr (q : nat -> @state T) fE fA :
  length junk = nM * nMd * nCr -> length scr = nE * nMd * nCr ->
  rep nE nMd tE (fun z => fst (q z)) -> length tA = nRm -> (forall rm, rm < nRm -> rep nM nMd (nth rm tA []) (fun z => snd (q z) rm)) ->
  rep nE nMd dofsE fE -> length dofsA = nRm -> (forall rm, rm < nRm -> rep nM nMd (nth rm dofsA []) (fA rm)) ->
  exists dofsE' dofsA' scr', volSingle zero add sub mul L cf ks stiff rfs starE starA srcA tE tA junk dofsE dofsA scr = Ok (dofsE', dofsA', scr') /\ length scr' = nE * nMd * nCr /\
    rep nE nMd dofsE' (fun z x y => add (fE z x y) (opE (q z) x y)) /\ length dofsA' = nRm /\
    (forall rm, rm < nRm -> rep nM nMd (nth rm dofsA' []) (fun z x y => add (fA rm z x y) (opA (q z) rm x y))).
Proof.
  intros Lj Ls RtE LtA RtA RdE LdA RdA. destruct genVolS_ok as (K00 & K01 & K1).
  assert (NM := nM_nE cf). assert (Cn1 := ck_le (cEl cf) (cSp cf) 1). unfold volSingle.
  destruct (zeroE_ok A cf nM junk Lj) as (s0 & E0 & R0). rewrite E0. cbn [bind]. clear E0.
  set (GEd := fun di x y z => sum di (fun d' => sum nE (fun j => mul (sE A cf starE d' x j) (grad d' (fst (q z)) j y)))).
  set (GAd := fun di x y z => sum di (fun d' => sum nDi (fun j => mul (sA A cf starA d' x j) (grad d' (fst (q z)) (nM + j) y)))).
  loop (fun di (s : list T * list T * list T) => let '(scr, dE, sa) := s in length scr = nE * nMd * nCr /\
    rep nE nMd dE (fun z x y => add (fE z x y) (GEd di x y z)) /\ (0 < nRm -> rep nM nMd sa (fun z x y => GAd di x y z))) as s1 E1 H1.
  - lia.
  - split; [auto|]. split; [eapply rep_ext; [exact RdE|]; intros; unfold GEd; cbn [AderSpec.sum]; ring|]. intros _. exact R0.
  - intros di ((scr1 & dE1) & sa1) Hdi (L1 & Re & Rs). rewrite K00. cbn [bind]. rewrite (rd_sized _ _ _ di Hst) by lia. cbn [bind].
    destruct (gemm_left nMd nE (ck_ 1) nMd nMd nMd false (nth di stiff []) tE scr1 nMd nE nE _ _
      ltac:(lia) ltac:(lia) ltac:(lia) ltac:(lia) ltac:(lia) ltac:(lia) ltac:(apply Hst; lia) RtE (rep_any A cf _ _ _ L1)) as (scr2 & Er & Rscr).
    rewrite Er. cbn [bind]. clear Er. rewrite K01. cbn [bind]. rewrite (rd_sized _ _ _ di HsE) by lia. cbn [bind].
    assert (Rg : rep nE nMd scr2 (fun z x y => grad di (fst (q z)) x y)).
    { eapply rep_ext; [exact Rscr|]. intros z x y Hz Hx Hy. cbv beta. rewrite (proj2 (Nat.ltb_lt _ _) Hx), (proj2 (Nat.ltb_lt _ _) Hy). cbn [andb].
      unfold AderSpec.grad. rewrite (sum_le A (ck_ 1) nMd) by (auto; intros l Hl; rewrite LowV by (auto; lia); ring).
      unfold AderInt.Kv. ring. }
    destruct (gemm_right nMd nE nE nMd nE nMd true scr2 (nth di starE []) dE1 nE nE nE _ _
      ltac:(lia) ltac:(lia) ltac:(lia) ltac:(lia) ltac:(lia) ltac:(lia) Rg ltac:(apply HsE; lia) Re) as (e2 & Er & Re2).
    rewrite Er. cbn [bind]. clear Er.
    assert (RE : rep nE nMd e2 (fun z x y => add (fE z x y) (GEd (S di) x y z))).
    { eapply rep_ext; [exact Re2|]. intros z x y Hz Hx Hy. cbv beta. rewrite (proj2 (Nat.ltb_lt _ _) Hx), (proj2 (Nat.ltb_lt _ _) Hy). cbn [andb].
      unfold GEd, sE. cbn [AderSpec.sum]. ring. }
    destruct (0 <? nRm) eqn:R.
    + apply Nat.ltb_lt in R. unfold sStarA. destruct (K1 R) as (-> & _). cbn [bind]. rewrite (rd_sized _ _ _ di (HsA R)) by lia. cbn [bind].
      destruct (gemm_right nMd nM nDi nMd nDi nMd true (skipn (nM * nMd * nCr) scr2) (nth di starA []) sa1 (nE - nM) nM nM _ _
        ltac:(lia) ltac:(lia) ltac:(lia) ltac:(lia) ltac:(lia) ltac:(lia) (rep_skipn A cf nE nM nMd _ _ ltac:(lia) Rg) ltac:(apply (HsA R); lia) (Rs R)) as (sa2 & Er & Rs2).
      rewrite Er. cbn [bind]. clear Er. eexists. split; [reflexivity|]. split; [apply Rscr|]. split; [exact RE|]. intros _.
      eapply rep_ext; [exact Rs2|]. intros z x y Hz Hx Hy. cbv beta. rewrite (proj2 (Nat.ltb_lt _ _) Hx), (proj2 (Nat.ltb_lt _ _) Hy). cbn [andb].
      unfold GAd, sA. cbn [AderSpec.sum]. ring.
    + eexists. split; [reflexivity|]. split; [apply Rscr|]. split; [exact RE|]. apply Nat.ltb_ge in R. intros; lia.
  - destruct s1 as ((scr1 & dE1) & sa1). destruct H1 as (L1 & Re1 & Rs1). cbn [bind].
    destruct (volRm_ok A cf rfs srcA (sSrc L ks 1 srcA) tA sa1 dE1 dofsA (fun rm z => snd (q z) rm) (fun z x y => add (fE z x y) (GEd nDi x y z)) (fun z x y => GAd nDi x y z) fA Hrf) as (dE2 & dA2 & Er & Re & LA2 & New); auto.
    + intros rm p e f fe Hrm Rp Re. destruct (K1 ltac:(lia)) as (_ & Kk). unfold sSrc. rewrite Kk. cbn [bind]. rewrite (rd_sized _ _ _ rm Hsrc) by lia. cbn [bind].
      destruct (gemm_right nMd nM nM nMd nM nMd true p (nth rm srcA []) e nM nM nE _ _
        ltac:(lia) ltac:(lia) ltac:(lia) ltac:(lia) ltac:(lia) ltac:(lia) Rp ltac:(apply Hsrc; lia) Re) as (e2 & Er2 & Re2).
      rewrite Er2. exists e2. split; [reflexivity|]. eapply rep_ext; [exact Re2|]. intros z x y Hz Hx Hy. cbv beta. rewrite (proj2 (Nat.ltb_lt _ _) Hy), andb_true_r.
      destruct (x <? nM); [reflexivity|ring].
    + rewrite Er. cbn [bind]. exists dE2, dA2, scr1. split; [reflexivity|]. split; [auto|]. split; [|split; [auto|exact New]].
      eapply rep_ext; [exact Re|]. intros z x y Hz Hx Hy. cbv beta. unfold AderSpec.opE. fold (GEd nDi x y z). ring.
Qed.
End Vol.

(** *** Surface *)
Section Surf.
Variables (rfs : list T) (ks : list (list gdesc)) (fIntLN fIntT : list (list T)).
Hypothesis Gen : genSurfS cf = Ok ks.
Hypothesis HfT : sized nFa (nMdFa * nMd) fIntT.
Hypothesis HfL : sized (nFa + nFluxN (cEl cf)) (nMd * nMdFa) fIntLN.
Local Notation faceInt := (faceInt A cf).

Lemma genSurfS_ok : xKern ks 0 0 = Ok (Build_gdesc nMdFa nE nMd nMdFa nMd nMdFa false) /\ xKern ks 0 1 = Ok (Build_gdesc nMdFa nE nE nMdFa nE nMdFa false) /\
  xKern ks 0 2 = Ok (Build_gdesc nMd nE nMdFa nMd nMdFa nMd true) /\ xKern ks 1 0 = Ok (Build_gdesc nMdFa nM nE nMdFa nE nMdFa false) /\
  xKern ks 1 1 = Ok (Build_gdesc nMd nM nMdFa nMd nMdFa nMd true).
Proof. revert Gen. clear. unfold genSurfS. cbn. intros E. injection E as <-. repeat split. Qed.

Lemma sLN_ok id t q o : id < nFa + nFluxN (cEl cf) -> rep nE nMd t q -> length o = nE * nMdFa * nCr ->
  exists o', sLN L ks fIntLN id t o = Ok o' /\ rep nE nMdFa o' (fun z => faceInt (nth id fIntLN []) (q z)).
Proof.
  intros Hid Rt Lo. destruct genSurfS_ok as (K0 & _). unfold sLN. rewrite K0. cbn [bind]. rewrite (rd_sized _ _ _ id HfL) by lia. cbn [bind].
  destruct (gemm_left nMdFa nE nMd nMdFa nMd nMdFa false (nth id fIntLN []) t o nMd nE nE _ _
    ltac:(lia) ltac:(lia) ltac:(lia) ltac:(lia) ltac:(lia) ltac:(lia) ltac:(apply HfL; lia) Rt (rep_any A cf _ _ _ Lo)) as (o' & E & R).
  exists o'. split; [exact E|]. eapply rep_ext; [exact R|]. intros z x y Hz Hx Hy. cbv beta. rewrite (proj2 (Nat.ltb_lt _ _) Hx), (proj2 (Nat.ltb_lt _ _) Hy). cbn [andb].
  unfold AderSpec.faceInt. ring.
Qed.
Lemma sFsE_ok f F fi g s : f = F /\ length F = nE * nE -> rep nE nMdFa fi g -> length s = nE * nMdFa * nCr ->
  exists s', sFs L ks 0 1 f fi s = Ok s' /\ rep nE nMdFa s' (fun z x m => sum nE (fun j => mul (ent nE F x j) (g z j m))).
Proof.
  intros (-> & LF) Rf Ls. destruct genSurfS_ok as (_ & K1 & _). unfold sFs. rewrite K1. cbn [bind].
  destruct (gemm_right nMdFa nE nE nMdFa nE nMdFa false fi F s nE nE nE _ _
    ltac:(lia) ltac:(lia) ltac:(lia) ltac:(lia) ltac:(lia) ltac:(lia) Rf LF (rep_any A cf _ _ _ Ls)) as (o' & E & R).
  exists o'. split; [exact E|]. eapply rep_ext; [exact R|]. intros z x y Hz Hx Hy. cbv beta. rewrite (proj2 (Nat.ltb_lt _ _) Hx), (proj2 (Nat.ltb_lt _ _) Hy). cbn [andb]. ring.
Qed.
Lemma sT_ok fa s g d fd : fa < nFa -> rep nE nMdFa s g -> rep nE nMd d fd ->
  exists d', sT L ks 0 2 fIntT fa s d = Ok d' /\ rep nE nMd d' (fun z x y => add (fd z x y) (sum nMdFa (fun m => mul (g z x m) (ent nMd (nth fa fIntT []) m y)))).
Proof.
  intros Hfa Rs Rd. destruct genSurfS_ok as (_ & _ & K2 & _). unfold sT. rewrite K2. cbn [bind]. rewrite (rd_sized _ _ _ fa HfT) by lia. cbn [bind].
  destruct (gemm_left nMd nE nMdFa nMd nMdFa nMd true (nth fa fIntT []) s d nMdFa nE nE _ _
    ltac:(lia) ltac:(lia) ltac:(lia) ltac:(lia) ltac:(lia) ltac:(lia) ltac:(apply HfT; lia) Rs Rd) as (o' & E & R).
  exists o'. split; [exact E|]. eapply rep_ext; [exact R|]. intros z x y Hz Hx Hy. cbv beta. now rewrite (proj2 (Nat.ltb_lt _ _) Hx), (proj2 (Nat.ltb_lt _ _) Hy).
Qed.
Lemma sFsA_ok f F fi g s : f = F /\ length F = nM * nE -> rep nE nMdFa fi g -> length s = nE * nMdFa * nCr ->
  exists s' r, sFs L ks 1 0 f fi s = Ok s' /\ rep nE nMdFa s' r /\ forall z x m, z < nCr -> x < nM -> m < nMdFa -> r z x m = sum nE (fun j => mul (ent nE F x j) (g z j m)).
Proof.
  intros (-> & LF) Rf Ls. destruct genSurfS_ok as (_ & _ & _ & K1 & _). assert (NM := nM_nE cf). unfold sFs. rewrite K1. cbn [bind].
  destruct (gemm_right nMdFa nM nE nMdFa nE nMdFa false fi F s nE nM nE _ _
    ltac:(lia) ltac:(lia) ltac:(lia) ltac:(lia) ltac:(lia) ltac:(lia) Rf LF (rep_any A cf _ _ _ Ls)) as (o' & E & R).
  eexists o', _. split; [exact E|]. split; [exact R|]. intros z x y Hz Hx Hy. cbv beta. rewrite (proj2 (Nat.ltb_lt _ _) Hx), (proj2 (Nat.ltb_lt _ _) Hy). cbn [andb]. ring.
Qed.
Lemma sTA_ok fa s g d fd : fa < nFa -> rep nE nMdFa s g -> rep nM nMd d fd ->
  exists d', sT L ks 1 1 fIntT fa s d = Ok d' /\ rep nM nMd d' (fun z x y => add (fd z x y) (sum nMdFa (fun m => mul (g z x m) (ent nMd (nth fa fIntT []) m y)))).
Proof.
  intros Hfa Rs Rd. destruct genSurfS_ok as (_ & _ & _ & _ & K2). assert (NM := nM_nE cf). unfold sT. rewrite K2. cbn [bind]. rewrite (rd_sized _ _ _ fa HfT) by lia. cbn [bind].
  destruct (gemm_left nMd nM nMdFa nMd nMdFa nMd true (nth fa fIntT []) s d nMdFa nE nM _ _
    ltac:(lia) ltac:(lia) ltac:(lia) ltac:(lia) ltac:(lia) ltac:(lia) ltac:(apply HfT; lia) Rs Rd) as (o' & E & R).
  exists o'. split; [exact E|]. eapply rep_ext; [exact R|]. intros z x y Hz Hx Hy. cbv beta. now rewrite (proj2 (Nat.ltb_lt _ _) Hx), (proj2 (Nat.ltb_lt _ _) Hy).
Qed.
End Surf.
End SgV.
