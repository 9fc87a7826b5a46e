(** Element updates of the ADER-DG solver: values of the results of the local and of the neighbouring step. *)
From Coq Require Import Ring.
From Verif Require Import Util MeshConn MatMul Props_Mat Sparse Lts Ader AderSpec AderV AderCk AderInt Props_Ader AderEl AderElSpec.
Local Open Scope nat_scope.

Section El.
Context {T : Type}.
Variables (A : alg T) (cf : conf).
Local Notation zero := (aZero A).
Local Notation one := (aOne A).
Local Notation add := (aAdd A).
Local Notation sub := (aSub A).
Local Notation mul := (aMul A).
Local Notation div := (aDiv A).
Local Notation opp := (aOpp A).
Local Notation ofN := (aOfN A).
Local Notation isz := (aIsz A).
Add Ring TR5 : (aRT A).
Local Notation nDi := (nDis (cEl cf)).
Local Notation nMd := (nModes (cEl cf) (cSp cf)).
Local Notation nMdFa := (nModesFa (cEl cf) (cSp cf)).
Local Notation nFa := (nElFas (cEl cf)).
Local Notation ck_ := (nModesCk (cEl cf) (cSp cf)).
Local Notation nE := (nQtsE (cEl cf)).
Local Notation nM := (nQtsM (cEl cf)).
Local Notation nCr := (cCrs cf).
Local Notation nRm := (cRms cf).
Local Notation state := (@state T).
Local Notation rep := (rep A cf).
Local Opaque nModes nModesCk nQtsE nQtsM nDis nModesFa nElFas.

Local Notation good := (good A cf).
Local Notation derivative := (derivative A cf).
Local Notation predInt := (predInt A cf).
Local Notation predAt := (predAt A cf).
Local Notation ownTerms := (ownTerms A cf).
Local Notation kernelsOf := (kernelsOf A cf).
Local Notation sent := (sent A cf).
Local Notation localPre := (localPre A cf).
Local Notation localPost := (localPost A cf).
Local Notation bufferData := (bufferData A cf).
Local Notation faceIn := (faceIn A cf).
Local Notation faceTerm := (faceTerm A cf).
Local Notation neighTerms := (neighTerms A cf).
Local Notation fluxSolvers := (fluxSolvers cf).
Local Notation scratchOk := (scratchOk cf).
Local Notation junkOk := (junkOk cf).
Local Notation bufferOk := (bufferOk cf).
Local Notation lshape := (lshape cf).
Local Notation at_ := (at_ cf).
Local Notation sameEl := (@sameEl T cf).
Local Notation setup := (@setup T).

Lemma addE_ok i o f g : rep nE nMd i f -> rep nE nMd o g -> exists o', addE add cf i o = Ok o' /\ rep nE nMd o' (fun z x y => add (g z x y) (f z x y)).
Proof.
  intros I O. destruct (loop3_ok A cf nE nE nMd (fun p o => y <- rd o p;; x <- rd i p;; wr o p (add y x)) (fun p v => add v (nth p i zero)) o g ltac:(lia) ltac:(lia) O) as (o' & E & H).
  { intros p c Hp Lc. rewrite (rd_ok _ _ zero) by lia. cbn [bind]. rewrite (rd_ok _ _ zero) by (destruct I; lia). cbn [bind]. rewrite wr_ok by lia. reflexivity. }
  exists o'. split; [exact E|]. eapply rep_ext; [exact H|]. intros z x y Hz Hx Hy. cbv beta.
  rewrite (proj2 (Nat.ltb_lt _ _) Hx), (proj2 (Nat.ltb_lt _ _) Hy). cbn [andb]. f_equal. apply I; auto.
Qed.
Lemma diffE_ok a b o f g : length o = nE * nMd * nCr -> rep nE nMd a f -> rep nE nMd b g -> exists o', diffE sub cf a b o = Ok o' /\ rep nE nMd o' (fun z x y => sub (f z x y) (g z x y)).
Proof.
  intros L Ra Rb. destruct (loop3_ok A cf nE nE nMd (fun p o => x <- rd a p;; y <- rd b p;; wr o p (sub x y)) (fun p _ => sub (nth p a zero) (nth p b zero)) o _ ltac:(lia) ltac:(lia) (rep_any A cf _ _ _ L)) as (o' & E & H).
  { intros p c Hp Lc. rewrite (rd_ok _ _ zero) by (destruct Ra; lia). cbn [bind]. rewrite (rd_ok _ _ zero) by (destruct Rb; lia). cbn [bind]. rewrite wr_ok by lia. reflexivity. }
  exists o'. split; [exact E|]. eapply rep_ext; [exact H|]. intros z x y Hz Hx Hy. cbv beta.
  rewrite (proj2 (Nat.ltb_lt _ _) Hx), (proj2 (Nat.ltb_lt _ _) Hy). cbn [andb]. f_equal; [apply Ra|apply Rb]; auto.
Qed.
Lemma subFa_ok i o f g : rep nE nMdFa i f -> rep nE nMdFa o g -> exists o', subFa sub cf i o = Ok o' /\ rep nE nMdFa o' (fun z x y => sub (g z x y) (f z x y)).
Proof.
  intros (Li & Vi) (Lo & Vo). unfold subFa.
  loop (fun n o' => length o' = length o /\ forall p, p < length o -> nth p o' zero = if p <? n then sub (nth p o zero) (nth p i zero) else nth p o zero) as o' E H.
  - lia.
  - split; auto.
  - intros p o' Hp (L & V). rewrite (rd_ok _ _ zero) by lia. cbn [bind]. rewrite (rd_ok _ _ zero) by lia. cbn [bind]. rewrite wr_ok by lia. eexists. split; [reflexivity|].
    rewrite length_upd. split; [auto|]. intros j Hj. destruct (Nat.eq_dec p j) as [->|N].
    + rewrite nth_upd_eq by lia. rewrite V by auto. rewrite Nat.ltb_irrefl. now rewrite (proj2 (Nat.ltb_lt j (S j)) ltac:(lia)).
    + rewrite nth_upd_ne by auto. rewrite V by auto. replace (j <? S p) with (j <? p); [reflexivity|]. destruct (Nat.ltb_spec j p), (Nat.ltb_spec j (S p)); auto; lia.
  - destruct H as (L & V). exists o'. split; [reflexivity|]. split; [lia|]. intros z x y Hz Hx Hy. pose proof (pos_lt nCr nE nMdFa x y z Hx Hy Hz) as P.
    rewrite V by lia. rewrite (proj2 (Nat.ltb_lt _ _) P). now rewrite Vi, Vo.
Qed.

(** projection of a difference *)
Lemma faceInt_sub F t u x m : sub (faceInt A cf F t x m) (faceInt A cf F u x m) = faceInt A cf F (fun x y => sub (t x y) (u x y)) x m.
Proof.
  unfold faceInt. generalize nMd. intros n. induction n as [|n IH]; cbn [AderSpec.sum]; [ring|]. rewrite <- IH. ring.
Qed.

Lemma kernelsOf_ok U : exists K, kernelsOf U = Ok K.
Proof.
  unfold AderElSpec.kernelsOf, mkKernels. destruct (genTime_ok A cf) as (kt & -> & _). destruct (genVol_ok A cf) as (kv & -> & _). destruct (genSurf_ok A cf) as (ks & -> & _). eexists. reflexivity.
Qed.
Lemma kernelsOf_inv U K : kernelsOf U = Ok K -> genTime zero one cf = Ok (kTime K) /\ genVol zero one cf = Ok (kVol K) /\ genSurf zero one cf = Ok (kSurf K) /\
  kStT K = storeStiffT opp cf (uStT U) /\ kSt K = uSt U /\ kLN K = uLN U /\ kFT K = uFT U /\ kRf K = uRf U.
Proof.
  unfold AderElSpec.kernelsOf, mkKernels. destruct (genTime zero one cf) as [kt|]; [|discriminate]. cbn [bind]. destruct (genVol zero one cf) as [kv|]; [|discriminate]. cbn [bind].
  destruct (genSurf zero one cf) as [ks|]; [|discriminate]. cbn [bind]. intros [= <-]. cbn. repeat split; reflexivity.
Qed.

Lemma nth0_upd {X} (l : list X) v d : 0 < length l -> nth 0 (upd l 0 v) d = v.
Proof. intros. now apply nth_upd_eq. Qed.

Lemma sendFace_ok U K fl c firstTs vIds t0 t1 t2 f0 f1 f2 fa b r v : kernelsOf U = Ok K -> fluxMatrices cf (uLN U) (uFT U) -> length (uRf U) = nRm ->
  says fl c fa r -> nth_error vIds fa = Some (Some v) -> v * nFa + fa < nFluxN (cEl cf) -> bufferOk r b ->
  rep nE nMd t0 f0 -> (r = Lt -> rep nE nMd t1 f1) -> (r = Gt -> rep nE nMd t2 f2) ->
  exists b', sendFace zero add sub mul isz cf K fl c firstTs vIds t0 t1 t2 fa (Some b) = Ok (Some b') /\
    sent (nth (nFa + (v * nFa + fa)) (uLN U) []) r firstTs f0 f1 f2 b b'.
Proof.
  intros HK (F1 & F2) Hrf (G1 & G2 & G3 & He & Hl & Hg) Hv Hid (Lb & Sb) R0 R1 R2. destruct (kernelsOf_inv U K HK) as (_ & _ & Gen & _ & _ & EL & _).
  unfold sendFace. rewrite (rd_some _ _ _ Hv). cbn [bind]. rewrite (rd_ok (fAdEq fl) fa 0%N G1). cbn [bind]. rewrite (rd_ok (fAdLt fl) fa 0%N G2). cbn [bind]. rewrite He, Hl, EL.
  assert (Hid' : fluxId cf (length (uLN U)) (Some v) fa < nFa + nFluxN (cEl cf)) by (cbn [fluxId]; lia).
  pose proof (fun t q o => neighFluxInt_ok A cf (uRf U) (kSurf K) (uLN U) Hrf Gen F1 (length (uLN U)) (Some v) fa t q o Hid') as Fx. cbn [fluxId] in Fx.
  destruct r.
  - rewrite (rd_ok b 0 []) by lia. cbn [bind]. destruct (Fx t0 f0 (nth 0 b []) R0 (Sb 0 ltac:(lia))) as (o & E & R). rewrite E. cbn [bind]. rewrite wr_ok by lia. cbn [bind].
    eexists. split; [reflexivity|]. split; [apply sized_upd; [split; auto|apply R]|]. rewrite nth0_upd by lia. exact R.
  - destruct firstTs; [eexists; split; [reflexivity|]; split; [split; auto|reflexivity]|].
    rewrite (rd_ok b 0 []) by lia. cbn [bind]. destruct (Fx t1 f1 (nth 0 b []) (R1 eq_refl) (Sb 0 ltac:(lia))) as (o & E & R). rewrite E. cbn [bind]. rewrite wr_ok by lia. cbn [bind].
    eexists. split; [reflexivity|]. split; [apply sized_upd; [split; auto|apply R]|]. rewrite nth0_upd by lia. exact R.
  - rewrite (rd_ok b 0 []) by lia. cbn [bind]. destruct (Fx t2 f2 (nth 0 b []) (R2 eq_refl) (Sb 0 ltac:(lia))) as (o & E & R). rewrite E. cbn [bind]. rewrite wr_ok by lia. cbn [bind].
    rewrite (rd_ok _ 1 []) by (rewrite length_upd; lia). cbn [bind]. rewrite nth_upd_ne by lia.
    destruct (Fx t0 f0 (nth 1 b []) R0 (Sb 1 ltac:(lia))) as (p & Ep & Rp). rewrite Ep. cbn [bind].
    destruct (subFa_ok o p _ _ R Rp) as (p' & Ep' & Rp'). rewrite Ep'. cbn [bind]. rewrite wr_ok by (rewrite length_upd; lia). cbn [bind].
    eexists. split; [reflexivity|]. split; [apply sized_upd; [apply sized_upd; [split; auto|apply R]|apply Rp']|].
    rewrite nth_upd_ne by lia. rewrite nth0_upd by lia. rewrite nth_upd_eq by (rewrite length_upd; lia). split; [exact R|].
    eapply rep_ext; [exact Rp'|]. intros z x m _ _ _. apply faceInt_sub.
Qed.
Lemma rep_len' nq n l f : rep nq n l f -> length l = nq * n * nCr.
Proof. intros (L & _). exact L. Qed.

(** samples of the prediction *)
Lemma sample_ok U el der pts tmp rc (q : nat -> state) : 1 <= cTi cf -> lowers A cf (predK A cf (uStT U)) -> sized (cTi cf) (nE * nMd * nCr) der -> length tmp = nE * nMd * nCr ->
  (forall d, d < cTi cf -> rep nE nMd (nth d der []) (fun z => fst (derivative U el d (q z)))) ->
  exists tmp' new, sample one add mul div ofN cf der pts tmp rc = Ok (tmp', rc ++ new) /\ length tmp' = nE * nMd * nCr /\ length new = length pts /\
    (nRm = 0 -> forall i, i < length pts -> rep nE nMd (nth i new []) (fun z => fst (predAt U el (nth i pts zero) (q z)))).
Proof.
  intros HT Low Sd Lt D. unfold sample.
  loop (fun n (s : list T * list (list T)) => let '(tmp', rc') := s in length tmp' = nE * nMd * nCr /\ exists new, rc' = rc ++ new /\ length new = n /\
    (nRm = 0 -> forall i, i < n -> rep nE nMd (nth i new []) (fun z => fst (predAt U el (nth i pts zero) (q z))))) as s E H.
  - lia.
  - split; [auto|]. exists []. rewrite app_nil_r. repeat split; auto; intros; lia.
  - intros i (tmp' & rc') Hi (Lt' & new & -> & Ln & V). rewrite (rd_ok pts i zero) by lia. cbn [bind].
    destruct (evalPred_ok A cf [nth i pts zero] der [tmp'] _ HT Sd D) as (pre & E & Sp & _).
    { split; [reflexivity|]. intros [|j] Hj; [exact Lt'|cbn in Hj; lia]. }
    rewrite E. cbn [bind]. rewrite (rd_ok pre 0 []) by (destruct Sp as (-> & _); cbn; lia). cbn [bind]. eexists. split; [reflexivity|]. cbv beta iota. split; [apply Sp; cbn; lia|].
    exists (new ++ [nth 0 pre []]). rewrite app_assoc. split; [reflexivity|]. split; [rewrite app_length; cbn; lia|]. intros R0 j Hj.
    destruct (Nat.eq_dec j i) as [->|N].
    + rewrite app_nth2 by lia. replace (i - length new) with 0 by lia. cbn [nth].
      destruct (C75_eval A cf (uStT U) (stE U el) (stA U el) (srA U el) (uRf U) der [nth i pts zero] [tmp'] q HT R0 Low Sd) as (pre' & E' & _ & V').
      { split; [reflexivity|]. intros [|k] Hk; [exact Lt'|cbn in Hk; lia]. } { exact D. }
      rewrite E in E'. injection E' as <-. exact (V' 0 ltac:(cbn; lia)).
    + rewrite app_nth1 by lia. apply V; auto; lia.
  - destruct s as (tmp' & rc'). destruct H as (Lt' & new & -> & Ln & V). exists tmp', new. repeat split; auto; now apply V.
Qed.

Lemma localEl_ok U K fl chars vIds firstTs dt hdt pts J el s rel less greater (q : nat -> state) g1 : good U -> kernelsOf U = Ok K -> junkOk J -> lshape U s -> el < uN U ->
  length vIds = uN U -> localPre fl chars vIds el s rel less greater q g1 ->
  exists s' new, localEl zero one add sub mul div ofN isz cf K (uS U) fl chars vIds firstTs dt hdt pts J el s = Ok s' /\ lshape U s' /\
    (forall el', el' <> el -> sameEl s s' el') /\ localPost U vIds firstTs dt hdt el s s' rel less greater q g1 /\
    lRec s' = lRec s ++ new /\ length new = length (pts el) /\
    (nRm = 0 -> forall i, i < length (pts el) -> rep nE nMd (nth i new []) (fun z => fst (predAt U el (nth i (pts el) zero) (q z)))).
Proof.
  intros (HT & Low & TLow & FM & HM & Hrf & NE & NS & NA & FE0 & FE1 & FA) HK (J1 & J2 & J3 & J4) (L1 & L2 & L3 & L4 & L5 & L6 & (S1 & S2 & S3 & S4)) Hel Lv (HQ & Lt0 & B1 & B2 & c & Hc & (Fl & Fg) & HS).
  destruct (kernelsOf_inv U K HK) as (GT & GV & GS & KT & KSt & KL & KF & KR). destruct (HM el Hel) as (M1 & M2).
  unfold localEl. rewrite (rd_some _ _ _ Hc). cbn [bind]. rewrite (rd_ok (mStarE (uS U)) el []) by lia. cbn [bind]. fold (stE U el).
  assert (XA : (if 0 <? nRm then rd (mStarA (uS U)) el else Ok []) = Ok (stA U el)).
  { unfold stA. destruct (0 <? nRm); [apply rd_ok; lia|]. rewrite nth_overflow by lia. reflexivity. }
  rewrite XA. cbn [bind]. rewrite (rd_ok (mSrcA (uS U)) el []) by lia. cbn [bind]. fold (srA U el).
  rewrite (rd_ok (lE s) el []) by lia. cbn [bind]. rewrite (rd_ok (lA s) el []) by lia. cbn [bind]. rewrite (rd_ok (l0 s) el []) by lia. cbn [bind].
  assert (HC : ckArrays cf (jA J) (sTmp (lScr s)) (sDer (lScr s)) (jDer J) (nth el (l0 s) []) (jT J)) by (split; [exact J1|split; [exact S1|split; [exact S2|split; [exact J2|split; [exact Lt0|exact J3]]]]]).
  destruct (C74_derivatives A cf (uStT U) (stE U el) (stA U el) (srA U el) (uRf U) dt (nth el (lE s) []) (nth el (lA s) []) (jA J) (sTmp (lScr s)) (sDer (lScr s)) (jDer J) (nth el (l0 s) []) (jT J) q HT M1 Low HC HQ)
    as (ks & sca & tmp & der & derA & t0 & tA & G' & E & (_ & C2 & C3 & _ & C5 & C6) & D & I).
  rewrite GT in G'. injection G' as <-. rewrite KT, KR, E. cbn [bind]. clear E. rewrite wr_ok by lia. cbn [bind].
  fold (derivative U el) in D. assert (DE : forall d, d < cTi cf -> rep nE nMd (nth d der []) (fun z => fst (derivative U el d (q z)))) by (intros d Hd; exact (proj1 (D d Hd))).
  change (holds A cf t0 tA (fun z => predInt U el dt (q z))) in I. assert (R0 := proj1 I). cbv beta in R0.
  rewrite (rd_ok (l1 s) el []) by lia. cbn [bind]. rewrite Fl.
  assert (X1 : exists t1, (if less then t1 <- (if firstTs then zeroE zero cf nE (nth el (l1 s) []) else Ok (nth el (l1 s) []));; addE add cf t0 t1 else Ok (nth el (l1 s) [])) = Ok t1 /\
    if less then rep nE nMd t1 (fun z x y => add (if firstTs then zero else g1 z x y) (fst (predInt U el dt (q z)) x y)) else t1 = nth el (l1 s) []).
  { destruct less; [|eauto]. destruct firstTs.
    - destruct (zeroE_ok A cf nE _ (rep_len' _ _ _ _ B1)) as (u & Eu & Ru). rewrite Eu. cbn [bind]. destruct (addE_ok t0 u _ _ R0 Ru) as (o & Eo & Ro). exists o. split; [exact Eo|exact Ro].
    - cbn [bind]. destruct (addE_ok t0 _ _ _ R0 B1) as (o & Eo & Ro). exists o. split; [exact Eo|exact Ro]. }
  destruct X1 as (t1 & E & R1). rewrite E. cbn [bind]. clear E. rewrite wr_ok by lia. cbn [bind]. rewrite (rd_ok (l2 s) el []) by lia. cbn [bind]. rewrite Fg.
  assert (X2 : exists t2, (if greater then integrate add mul div ofN cf hdt der (nth el (l2 s) []) else Ok (nth el (l2 s) [])) = Ok t2 /\
    if greater then rep nE nMd t2 (fun z => fst (predInt U el hdt (q z))) else t2 = nth el (l2 s) []).
  { destruct greater; [|eauto]. destruct (C75_integrate A cf (uStT U) (stE U el) (stA U el) (srA U el) (uRf U) der hdt (nth el (l2 s) []) q HT Low C3 B2 DE) as (o & Eo & Ro).
    exists o. split; [exact Eo|exact Ro]. }
  destruct X2 as (t2 & E & R2). rewrite E. cbn [bind]. clear E. rewrite wr_ok by lia. cbn [bind]. rewrite (rd_ok vIds el []) by lia. cbn [bind].
  set (f0 := fun z => fst (predInt U el dt (q z))) in *. set (f1 := fun z x y => add (if firstTs then zero else g1 z x y) (f0 z x y)). set (f2 := fun z => fst (predInt U el hdt (q z))) in *.
  change (if less then rep nE nMd t1 f1 else t1 = nth el (l1 s) []) in R1.
  assert (XS : exists nS, for_ 0 nFa (fun fa sd => b <- rd sd (el * nFa + fa);; b <- sendFace zero add sub mul isz cf K fl c firstTs (nth el vIds []) t0 t1 t2 fa b;; wr sd (el * nFa + fa) b) (lSend s) = Ok nS /\
    length nS = uN U * nFa /\ (forall i, (forall fa, fa < nFa -> i <> at_ el fa) -> nth_error nS i = nth_error (lSend s) i) /\
    (forall fa, fa < nFa -> match nth_error (lSend s) (at_ el fa) with
       | Some (Some b) => exists b' v, nth_error nS (at_ el fa) = Some (Some b') /\ nth_error (nth el vIds []) fa = Some (Some v) /\
           sent (nth (nFa + (v * nFa + fa)) (uLN U) []) (rel fa) firstTs f0 f1 f2 b b'
       | o => nth_error nS (at_ el fa) = o end)).
  { loop (fun n nS => length nS = uN U * nFa /\ (forall i, (forall fa, fa < n -> i <> at_ el fa) -> nth_error nS i = nth_error (lSend s) i) /\
      (forall fa, fa < n -> match nth_error (lSend s) (at_ el fa) with
       | Some (Some b) => exists b' v, nth_error nS (at_ el fa) = Some (Some b') /\ nth_error (nth el vIds []) fa = Some (Some v) /\
           sent (nth (nFa + (v * nFa + fa)) (uLN U) []) (rel fa) firstTs f0 f1 f2 b b'
       | o => nth_error nS (at_ el fa) = o end)) as nS E H.
    - lia.
    - split; [auto|]. split; [auto|]. intros; lia.
    - intros fa nS Hfa (Ln & Un & Vn). fold (at_ el fa).
      assert (Hat : at_ el fa < uN U * nFa) by (unfold AderElSpec.at_; nia).
      assert (Cur : nth_error nS (at_ el fa) = nth_error (lSend s) (at_ el fa)) by (apply Un; intros; unfold AderElSpec.at_; lia).
      destruct (nth_error (lSend s) (at_ el fa)) as [b|] eqn:Eb; [|apply nth_error_None in Eb; lia].
      rewrite (rd_some _ _ _ Cur). cbn [bind].
      assert (XB : exists b', sendFace zero add sub mul isz cf K fl c firstTs (nth el vIds []) t0 t1 t2 fa b = Ok b' /\
        match b with Some b => exists b2 v, b' = Some b2 /\ nth_error (nth el vIds []) fa = Some (Some v) /\ sent (nth (nFa + (v * nFa + fa)) (uLN U) []) (rel fa) firstTs f0 f1 f2 b b2 | None => b' = None end).
      { destruct b as [b|]; [|eexists; split; reflexivity]. destruct (HS fa b (proj2 Hfa) Eb) as (Sy & Bo & ReL & ReG & v & Hv & Hid).
        destruct (sendFace_ok U K fl c firstTs (nth el vIds []) t0 t1 t2 f0 f1 f2 fa b (rel fa) v HK FM Hrf Sy Hv Hid Bo R0) as (b2 & E2 & V2).
        - intros X. now rewrite (ReL X) in R1.
        - intros X. now rewrite (ReG X) in R2.
        - exists (Some b2). split; [exact E2|]. exists b2, v. auto. }
      destruct XB as (b' & EB & PB). rewrite EB. cbn [bind]. rewrite wr_ok by lia. eexists. split; [reflexivity|]. split; [now rewrite length_upd|]. split.
      + intros i Hi. rewrite nth_error_upd_ne by (intros X; apply (Hi fa); auto). apply Un. intros; apply Hi; lia.
      + intros fb Hfb. destruct (Nat.eq_dec fb fa) as [->|N].
        * rewrite Eb. rewrite nth_error_upd_eq by lia. destruct b as [b|]; [|now rewrite PB]. destruct PB as (b2 & v & -> & P). exists b2, v. auto.
        * rewrite nth_error_upd_ne by (unfold AderElSpec.at_; lia). apply Vn. lia.
    - exists nS. split; [reflexivity|exact H]. }
  destruct XS as (nS & E & LS & US & VS). rewrite E. cbn [bind]. clear E.
  destruct (sample_ok U el der (pts el) tmp (lRec s) q HT Low C3 C2 DE) as (tmp2 & new & E & Lt2 & Lnew & Vnew). rewrite E. cbn [bind]. clear E.
  destruct (C76_volume A cf (uSt U) (stE U el) (stA U el) (srA U el) (uRf U) t0 tA (jA J) (nth el (lE s) []) (nth el (lA s) []) tmp2 _ q M2 TLow J1 Lt2 I HQ)
    as (kv & qE & qA & tmp3 & G' & E & Lt3 & HV). rewrite GV in G'. injection G' as <-. rewrite KSt, E. cbn [bind]. clear E.
  destruct FE0 as (FE0 & FE0'). rewrite (rd_ok (mFsE0 (uS U)) el []) by lia. cbn [bind].
  assert (XF : (if 0 <? nRm then rd (mFsA0 (uS U)) el else Ok []) = Ok (nth el (mFsA0 (uS U)) []) /\ (0 < nRm -> sized nFa (nM * nE) (nth el (mFsA0 (uS U)) []))).
  { destruct (Nat.ltb_spec 0 nRm) as [R|R].
    - destruct FA as ((FA1 & FA2) & _). split; [apply rd_ok; lia|]. auto.
    - destruct FA as (-> & _). split; [destruct el; reflexivity|lia]. }
  destruct XF as (XF & SF). rewrite XF. cbn [bind]. clear XF.
  destruct (C76_surface_local A cf (uLN U) (uFT U) (uRf U) (nth el (mFsE0 (uS U)) []) (nth el (mFsA0 (uS U)) []) t0 (jA J) qE qA (sFa0 (lScr s)) (sFa1 (lScr s)) f0 _ FM Hrf (FE0' el Hel) SF J1 S3 S4 R0 HV)
    as (ks & qE' & qA' & x0 & x1 & G' & E & Lx0 & Lx1 & HF). rewrite GS in G'. injection G' as <-. rewrite KL, KF, E. cbn [bind]. clear E.
  rewrite !wr_ok by lia. cbn [bind]. eexists. exists new. split; [reflexivity|]. cbn [lE lA l0 l1 l2 lSend lRec lScr].
  split; [|split; [|split; [unfold AderElSpec.localPost; cbv zeta; cbn [lE lA l0 l1 l2 lSend]; split; [|split; [|split; [|split]]]|split; [|split]]]].
  - unfold AderElSpec.lshape. cbn [lE lA l0 l1 l2 lSend lScr]. rewrite !length_upd. repeat split; auto; apply C3.
  - intros el' N. unfold AderElSpec.sameEl. cbn [lE lA l0 l1 l2 lSend]. rewrite !nth_upd_ne by auto. do 5 (split; [reflexivity|]). intros fa Hfa. apply US.
    intros fb Hfb. unfold AderElSpec.at_. nia.
  - rewrite !nth_upd_eq by lia. destruct HF as (P1 & P2 & P3). split; [|split; [exact P2|]].
    + eapply rep_ext; [exact P1|]. intros z x y _ _ _. unfold AderElSpec.ownTerms, plus. cbn [fst]. unfold f0. ring.
    + intros rm Hrm. eapply rep_ext; [exact (P3 rm Hrm)|]. intros z x y _ _ _. unfold AderElSpec.ownTerms, plus. cbn [snd]. unfold f0. ring.
  - rewrite nth_upd_eq by lia. exact R0.
  - rewrite nth_upd_eq by lia. exact R1.
  - rewrite nth_upd_eq by lia. exact R2.
  - exact VS.
  - reflexivity.
  - exact Lnew.
  - exact Vnew.
Qed.

Lemma sameEl_trans s1 s2 s3 el : sameEl s1 s2 el -> sameEl s2 s3 el -> sameEl s1 s3 el.
Proof.
  intros (A1 & A2 & A3 & A4 & A5 & A6) (B1 & B2 & B3 & B4 & B5 & B6). unfold AderElSpec.sameEl. rewrite B1, B2, B3, B4, B5, A1, A2, A3, A4, A5. do 5 (split; [reflexivity|]).
  intros fa Hfa. now rewrite B6, A6.
Qed.
Lemma sameEl_pre fl chars vIds el s s' rel less greater q g1 : sameEl s s' el -> localPre fl chars vIds el s rel less greater q g1 -> localPre fl chars vIds el s' rel less greater q g1.
Proof.
  intros (A1 & A2 & A3 & A4 & A5 & A6) (P1 & P2 & P3 & P4 & c & P5 & P6 & P7). unfold AderElSpec.localPre. rewrite A1, A2, A3, A4, A5. do 4 (split; [assumption|]). exists c. split; [auto|]. split; [auto|].
  intros fa b Hfa. rewrite A6 by auto. now apply P7.
Qed.
(** the result is not changed by what is done for other elements, before or after *)
Lemma sameEl_post U vIds firstTs dt hdt el s1 s2 s3 s4 rel less greater q g1 : sameEl s1 s2 el -> sameEl s3 s4 el ->
  localPost U vIds firstTs dt hdt el s2 s3 rel less greater q g1 -> localPost U vIds firstTs dt hdt el s1 s4 rel less greater q g1.
Proof.
  intros (A1 & A2 & A3 & A4 & A5 & A6) (B1 & B2 & B3 & B4 & B5 & B6) (P1 & P2 & P3 & P4 & P5). unfold AderElSpec.localPost. cbv zeta. rewrite B1, B2, B3, B4, B5.
  split; [exact P1|]. split; [exact P2|]. split; [now rewrite <- A4|]. split; [now rewrite <- A5|]. intros fa Hfa. specialize (P5 fa Hfa). rewrite A6 in P5 by auto. rewrite B6 by auto. exact P5.
Qed.

Lemma local_ok U K fl chars vIds firstTs dt hdt pts J first n s (rel : nat -> nat -> comparison) (less greater : nat -> bool) (q : nat -> nat -> state) g1 :
  good U -> kernelsOf U = Ok K -> junkOk J -> lshape U s -> first + n <= uN U -> length vIds = uN U ->
  (forall el, first <= el < first + n -> localPre fl chars vIds el s (rel el) (less el) (greater el) (q el) (g1 el)) ->
  exists s' new, local zero one add sub mul div ofN isz cf K (uS U) fl chars vIds firstTs dt hdt pts J first n s = Ok s' /\ lshape U s' /\
    (forall el, ~ (first <= el < first + n) -> sameEl s s' el) /\
    (forall el, first <= el < first + n -> localPost U vIds firstTs dt hdt el s s' (rel el) (less el) (greater el) (q el) (g1 el)) /\
    lRec s' = lRec s ++ concat new /\ length new = n /\ (forall i, i < n -> length (nth i new []) = length (pts (first + i))) /\
    (nRm = 0 -> forall i j, i < n -> j < length (pts (first + i)) ->
       rep nE nMd (nth j (nth i new []) []) (fun z => fst (predAt U (first + i) (nth j (pts (first + i)) zero) (q (first + i) z)))).
Proof.
  intros G HK HJ HS Hn Lv HP. unfold local.
  loop (fun m s' => lshape U s' /\ (forall el, ~ (first <= el < m) -> sameEl s s' el) /\
    (forall el, first <= el < m -> localPost U vIds firstTs dt hdt el s s' (rel el) (less el) (greater el) (q el) (g1 el)) /\
    exists new, lRec s' = lRec s ++ concat new /\ length new = m - first /\ (forall i, i < m - first -> length (nth i new []) = length (pts (first + i))) /\
    (nRm = 0 -> forall i j, i < m - first -> j < length (pts (first + i)) ->
       rep nE nMd (nth j (nth i new []) []) (fun z => fst (predAt U (first + i) (nth j (pts (first + i)) zero) (q (first + i) z))))) as s' E H.
  - lia.
  - split; [auto|]. split; [intros; unfold AderElSpec.sameEl; auto 10|]. split; [intros; lia|]. exists []. cbn [concat length]. rewrite app_nil_r. split; [reflexivity|]. split; [lia|]. split; intros; lia.
  - intros el s1 Hel (H1 & H2 & H3 & new & H4 & H5 & H6 & H7).
    destruct (localEl_ok U K fl chars vIds firstTs dt hdt pts J el s1 (rel el) (less el) (greater el) (q el) (g1 el) G HK HJ H1 ltac:(lia) Lv) as (s2 & nw & E & K1 & K2 & K3 & K4 & K5 & K6).
    { eapply sameEl_pre; [|apply HP; auto]. apply H2. lia. }
    exists s2. split; [exact E|]. split; [exact K1|]. split; [|split].
    + intros el' N. eapply sameEl_trans; [apply H2; lia|apply K2; lia].
    + intros el' Hel'. destruct (Nat.eq_dec el' el) as [->|N].
      * eapply sameEl_post; [apply H2; lia| |exact K3]. unfold AderElSpec.sameEl; auto 10.
      * eapply sameEl_post; [| |apply H3; lia]; [unfold AderElSpec.sameEl; auto 10|apply K2; auto].
    + exists (new ++ [nw]). split; [rewrite K4, H4, concat_app; cbn [concat]; now rewrite app_nil_r, app_assoc|]. split; [rewrite app_length; cbn [length]; lia|]. split.
      * intros i Hi. destruct (Nat.eq_dec i (el - first)) as [->|N].
        -- rewrite app_nth2 by lia. replace (el - first - length new) with 0 by lia. cbn [nth]. rewrite K5. now replace (first + (el - first)) with el by lia.
        -- rewrite app_nth1 by lia. apply H6. lia.
      * intros R i j Hi Hj. destruct (Nat.eq_dec i (el - first)) as [->|N].
        -- rewrite app_nth2 by lia. replace (el - first - length new) with 0 by lia. cbn [nth]. replace (first + (el - first)) with el in * by lia. now apply K6.
        -- rewrite app_nth1 by lia. apply H7; auto; lia.
  - destruct H as (H1 & H2 & H3 & new & H4 & H5 & H6 & H7). replace (first + n - first) with n in * by lia. exists s', new. auto 10.
Qed.

(** *** Neighbouring step *)

Lemma rd_at2 {X} (l : list (list X)) i j x : at2 l i j x -> rd2 l i j = Ok x.
Proof. intros (row & H1 & H2). unfold rd2. rewrite (rd_some _ _ _ H1). cbn [bind]. now apply rd_some. Qed.

Lemma neighData_ok fl c firstTs t0s t1s t2s ne fa jn r d : length jn = nE * nMd * nCr -> says fl c fa r -> bufferData t0s t1s t2s firstTs ne r d ->
  exists t, neighData sub cf fl c firstTs t0s t1s t2s (Some ne) None fa jn = Ok (t, None) /\ rep nE nMd t d.
Proof.
  intros Lj (G1 & G2 & G3 & He & Hl & Hg) (N0 & N1 & N2 & B). unfold neighData. rewrite (rd_ok (fAdEq fl) fa 0%N G1). cbn [bind]. rewrite (rd_ok (fAdGt fl) fa 0%N G3). cbn [bind]. rewrite He, Hg.
  destruct r.
  - rewrite (rd_ok t0s ne []) by auto. cbn [bind]. destruct (copyE_ok A cf nE _ jn d Lj B) as (o & E & R). rewrite E. cbn [bind]. eauto.
  - destruct firstTs.
    + rewrite (rd_ok t2s ne []) by auto. cbn [bind]. destruct (copyE_ok A cf nE _ jn d Lj B) as (o & E & R). rewrite E. cbn [bind]. eauto.
    + rewrite (rd_ok t0s ne []) by auto. cbn [bind]. rewrite (rd_ok t2s ne []) by auto. cbn [bind]. destruct B as (a & b & Ra & Rb & D).
      destruct (diffE_ok _ _ jn a b Lj Ra Rb) as (o & E & R). rewrite E. cbn [bind]. exists o. split; [reflexivity|]. eapply rep_ext; [exact R|]. intros; symmetry; apply D.
  - rewrite (rd_ok t1s ne []) by auto. cbn [bind]. destruct (copyE_ok A cf nE _ jn d Lj B) as (o & E & R). rewrite E. cbn [bind]. eauto.
Qed.

Lemma at2_of {X} (l : list (list X)) i j d : i < length l -> j < length (nth i l []) -> at2 l i j (nth j (nth i l []) d).
Proof. intros H1 H2. exists (nth i l []). split; apply nth_error_nth'; auto. Qed.

Lemma neighFace_ok U K fl M c firstTs t0s t1s t2s recv jn el fa out id d qE up x0 x1 fE fU : good U -> kernelsOf U = Ok K -> el < uN U -> fa < nFa -> length jn = nE * nMd * nCr ->
  faceIn U fl M c firstTs t0s t1s t2s recv el fa out id d ->
  length x0 = nE * nMdFa * nCr -> length x1 = nE * nMdFa * nCr -> rep nE nMd qE fE -> rep nM nMd up fU ->
  exists qE' up' x0' x1', neighFace zero add sub mul isz cf K (uS U) fl M c firstTs t0s t1s t2s recv jn el fa (qE, up, x0, x1) = Ok (qE', up', x0', x1') /\
    length x0' = nE * nMdFa * nCr /\ length x1' = nE * nMdFa * nCr /\
    rep nE nMd qE' (fun z x y => add (fE z x y) (if out then zero else faceTerm U (nth fa (nth el (mFsE1 (uS U)) []) []) fa id (d z) x y)) /\
    rep nM nMd up' (fun z x y => if 0 <? nRm then add (fU z x y) (if out then zero else faceTerm U (nth fa (nth el (mFsA1 (uS U)) []) []) fa id (d z) x y) else fU z x y).
Proof.
  intros (HT & Low & TLow & FM & HM & Hrf & NE & NS & NA & FE0 & (FE1 & FE1') & FA) HK Hel Hfa Lj (fid & ch & Hfid & Hch & Ho & HI) L0 L1 RE RU.
  destruct (kernelsOf_inv U K HK) as (_ & _ & GS & _ & _ & KL & KF & KR). unfold neighFace. rewrite (rd_at2 _ _ _ _ Hfid). cbn [bind]. rewrite (rd_some _ _ _ Hch). cbn [bind]. rewrite Ho.
  destruct out.
  { exists qE, up, x0, x1. split; [reflexivity|]. split; [auto|]. split; [auto|]. split.
    - eapply rep_ext; [exact RE|]. intros. cbv beta. ring.
    - eapply rep_ext; [exact RU|]. intros. cbv beta. destruct (0 <? nRm); [ring|reflexivity]. }
  destruct (HI eq_refl) as (r & rv & Sy & Hrv & HD). clear HI.
  assert (HR : (match recv with None => Ok None | Some l => rd l (el * nFa + fa) end) = Ok rv).
  { destruct recv as [l|]; [|now rewrite Hrv]. now apply rd_some. }
  rewrite HR. clear HR Hrv.
  assert (HF : rd2 (mFsE1 (uS U)) el fa = Ok (nth fa (nth el (mFsE1 (uS U)) []) []) /\ length (nth fa (nth el (mFsE1 (uS U)) []) []) = nE * nE).
  { destruct (FE1' el Hel) as (F1 & F2). split; [|auto]. apply rd_at2, at2_of; lia. }
  assert (HFA : (if 0 <? nRm then rd2 (mFsA1 (uS U)) el fa else Ok []) = Ok (nth fa (nth el (mFsA1 (uS U)) []) []) /\ (0 < nRm -> length (nth fa (nth el (mFsA1 (uS U)) []) []) = nM * nE)).
  { destruct (Nat.ltb_spec 0 nRm) as [R|R].
    - destruct FA as (_ & FA1 & FA2). destruct (FA2 el Hel) as (F1 & F2). split; [|auto]. apply rd_at2, at2_of; lia.
    - destruct FA as (_ & ->). split; [|lia]. destruct el, fa; reflexivity. }
  destruct HF as (HF & LF), HFA as (HFA & LFA).
  assert (Goal_ : exists ne t pre vId fId, (if has ch (aFree M) then Ok (Some el) else rd2 (aElFaEl M) el fa) = Ok ne /\
      neighData sub cf fl c firstTs t0s t1s t2s ne rv fa jn = Ok (t, pre) /\
      (if has ch (aFree M) then Ok None else rd2 (aVId M) el fa) = Ok vId /\ (if has ch (aFree M) then Ok 0 else rd2 (aFId M) el fa) = Ok fId /\
      id = matrixOf cf fa vId fId /\ id < nFa + nFluxN (cEl cf) /\
      match pre with None => rep nE nMd t d | Some p => rep nE nMdFa p (fun z => faceInt A cf (nth id (uLN U) []) (d z)) end).
  { destruct (has ch (aFree M)).
    - destruct HD as (-> & -> & -> & B). destruct (neighData_ok fl c firstTs t0s t1s t2s el fa jn Eq d Lj Sy B) as (t & E & R).
      exists (Some el), t, None, None, 0. rewrite E. do 4 (split; [reflexivity|]). split; [reflexivity|]. split; [lia|exact R].
    - destruct HD as (v & fId & Hv & Hf & Hlt & Hid & B). rewrite (rd_at2 _ _ _ _ Hv), (rd_at2 _ _ _ _ Hf). destruct rv as [b|].
      + destruct B as (Bo & (x & Hx) & R). rewrite (rd_at2 _ _ _ _ Hx). exists x, jn, (Some (nth (match r with Lt => if firstTs then 0 else 1 | _ => 0 end) b [])), (Some v), fId.
        split; [reflexivity|]. split; [|repeat split; auto; cbn; try lia; apply R].
        unfold neighData. destruct Sy as (G1 & G2 & G3 & He & Hl & Hg). rewrite (rd_ok (fAdLt fl) fa 0%N G2). cbn [bind]. rewrite Hl. destruct Bo as (Lb & _).
        destruct r; cbn [CompOpp] in Lb; cbn [andb negb]; try (rewrite (rd_ok b 0 []) by lia; reflexivity).
        destruct firstTs; cbn [negb]; rewrite (rd_ok b _ []) by lia; reflexivity.
      + destruct B as (ne & Hne & B). rewrite (rd_at2 _ _ _ _ Hne). destruct (neighData_ok fl c firstTs t0s t1s t2s ne fa jn r d Lj Sy B) as (t & E & R).
        exists (Some ne), t, None, (Some v), fId. split; [reflexivity|]. split; [exact E|]. split; [reflexivity|]. split; [reflexivity|]. split; [exact Hid|]. split; [lia|exact R]. }
  destruct Goal_ as (ne & t & pre & vId & fId & -> & E & -> & -> & Hid & Hlt & Pre). cbn [bind]. rewrite E. cbn [bind]. rewrite HF, HFA. cbn [bind]. rewrite KL, KF. rewrite Hid in Hlt, Pre.
  destruct (C76_surface_neigh A cf (uLN U) (uFT U) fa vId fId _ (nth fa (nth el (mFsA1 (uS U)) []) []) t pre qE up x0 x1 d fE fU FM Hfa Hlt LF LFA L0 L1 Pre RE RU)
    as (ks & qE' & up' & x0' & x1' & G' & E' & P0 & P1 & P2 & P3). rewrite GS in G'. injection G' as <-. rewrite Hid.
  exists qE', up', x0', x1'. auto.
Qed.

Lemma neighEl_ok U K fl M chars firstTs t0s t1s t2s recv J el dE dA x0 x1 c (out : nat -> bool) (id : nat -> nat) (d : nat -> nat -> nat -> nat -> T) (q : nat -> state) :
  good U -> kernelsOf U = Ok K -> junkOk J -> el < uN U -> length dE = uN U -> length dA = uN U -> length x0 = nE * nMdFa * nCr -> length x1 = nE * nMdFa * nCr ->
  nth_error chars el = Some c -> (forall fa, fa < nFa -> faceIn U fl M c firstTs t0s t1s t2s recv el fa (out fa) (id fa) (d fa)) -> holds A cf (nth el dE []) (nth el dA []) q ->
  exists dE' dA' x0' x1', neighEl zero add sub mul isz cf K (uS U) fl M chars firstTs t0s t1s t2s recv J el (dE, dA, x0, x1) = Ok (dE', dA', x0', x1') /\
    length dE' = uN U /\ length dA' = uN U /\ length x0' = nE * nMdFa * nCr /\ length x1' = nE * nMdFa * nCr /\
    (forall el', el' <> el -> nth el' dE' [] = nth el' dE [] /\ nth el' dA' [] = nth el' dA []) /\
    holds A cf (nth el dE' []) (nth el dA' []) (fun z => plus A (q z) (neighTerms U el out id (fun fa => d fa z))).
Proof.
  intros G HK (J1 & _ & _ & J4) Hel LE LA L0 L1 Hc HF (Q1 & Q2 & Q3). destruct (kernelsOf_inv U K HK) as (_ & _ & _ & _ & _ & _ & _ & KR). assert (Hrf := G). destruct Hrf as (_ & _ & _ & _ & _ & Hrf & _).
  unfold neighEl. rewrite (rd_some _ _ _ Hc). cbn [bind]. rewrite (rd_ok dE el []) by lia. cbn [bind].
  assert (XU : exists up g, (if 0 <? nRm then zeroE zero cf nM (jA J) else Ok (jA J)) = Ok up /\ rep nM nMd up g /\ (0 < nRm -> forall z x y, g z x y = zero)).
  { destruct (Nat.ltb_spec 0 nRm) as [R|R].
    - destruct (zeroE_ok A cf nM _ J1) as (u & Eu & Ru). eexists u, _. split; [exact Eu|]. split; [exact Ru|]. reflexivity.
    - eexists _, _. split; [reflexivity|]. split; [exact (rep_any A cf _ _ _ J1)|]. lia. }
  destruct XU as (up & g & Eu & Ru & Zg). rewrite Eu. cbn [bind]. clear Eu.
  loop (fun n (s : nFace) => let '(qE, up, x0, x1) := s in length x0 = nE * nMdFa * nCr /\ length x1 = nE * nMdFa * nCr /\
    rep nE nMd qE (fun z x y => add (fst (q z) x y) (AderSpec.sum A n (fun fa => if out fa then zero else faceTerm U (nth fa (nth el (mFsE1 (uS U)) []) []) fa (id fa) (d fa z) x y))) /\
    rep nM nMd up (fun z x y => if 0 <? nRm then AderSpec.sum A n (fun fa => if out fa then zero else faceTerm U (nth fa (nth el (mFsA1 (uS U)) []) []) fa (id fa) (d fa z) x y) else g z x y)) as s E H.
  - lia.
  - split; [auto|]. split; [auto|]. split.
    + eapply rep_ext; [exact Q1|]. intros. cbn [AderSpec.sum]. ring.
    + eapply rep_ext; [exact Ru|]. intros. cbn [AderSpec.sum]. destruct (Nat.ltb_spec 0 nRm) as [R|R]; [now apply Zg|reflexivity].
  - intros fa (((qE & u) & y0) & y1) Hfa (Y0 & Y1 & Y2 & Y3).
    destruct (neighFace_ok U K fl M c firstTs t0s t1s t2s recv (jE J) el fa (out fa) (id fa) (d fa) qE u y0 y1 _ _ G HK Hel (proj2 Hfa) J4 (HF fa (proj2 Hfa)) Y0 Y1 Y2 Y3)
      as (qE' & u' & y0' & y1' & E & Z0 & Z1 & Z2 & Z3). rewrite E. eexists. split; [reflexivity|]. cbv beta iota. split; [exact Z0|]. split; [exact Z1|]. split.
    + eapply rep_ext; [exact Z2|]. intros. cbn [AderSpec.sum]. ring.
    + eapply rep_ext; [exact Z3|]. intros. cbn [AderSpec.sum]. destruct (0 <? nRm); reflexivity.
  - destruct s as (((qE & u) & y0) & y1). destruct H as (Y0 & Y1 & Y2 & Y3). rewrite wr_ok by lia. cbn [bind]. destruct (Nat.ltb_spec 0 nRm) as [R|R].
    + rewrite (rd_ok dA el []) by lia. cbn [bind]. destruct (scatter_ok A cf (uRf U) Hrf u (nth el dA []) _ (fun rm z => snd (q z) rm) Y3 Q2 Q3) as (qA & E & LqA & RqA).
      rewrite KR, E. cbn [bind]. rewrite wr_ok by lia. cbn [bind]. eexists _, _, _, _. split; [reflexivity|]. rewrite !length_upd. do 4 (split; [assumption|]). split.
      * intros el' N. rewrite !nth_upd_ne by auto. auto.
      * rewrite !nth_upd_eq by lia. split; [exact Y2|]. split; [exact LqA|]. intros rm Hrm. eapply rep_ext; [exact (RqA rm Hrm)|]. intros z x y _ _ _. unfold plus, AderElSpec.neighTerms. cbn [snd]. reflexivity.
    + eexists _, _, _, _. split; [reflexivity|]. rewrite !length_upd. do 4 (split; [assumption|]). split.
      * intros el' N. rewrite !nth_upd_ne by auto. auto.
      * rewrite !nth_upd_eq by lia. split; [exact Y2|]. split; [exact Q2|]. intros; lia.
Qed.

Lemma neigh_ok U K fl M chars firstTs t0s t1s t2s recv J first n dE dA x0 x1 (out : nat -> nat -> bool) (id : nat -> nat -> nat) (d : nat -> nat -> nat -> nat -> nat -> T) (q : nat -> nat -> state) :
  good U -> kernelsOf U = Ok K -> junkOk J -> first + n <= uN U -> length dE = uN U -> length dA = uN U -> length x0 = nE * nMdFa * nCr -> length x1 = nE * nMdFa * nCr ->
  (forall el, first <= el < first + n -> (exists c, nth_error chars el = Some c /\ forall fa, fa < nFa -> faceIn U fl M c firstTs t0s t1s t2s recv el fa (out el fa) (id el fa) (d el fa)) /\
     holds A cf (nth el dE []) (nth el dA []) (q el)) ->
  exists dE' dA' x0' x1', neigh zero add sub mul isz cf K (uS U) fl M chars firstTs t0s t1s t2s recv J first n (dE, dA, x0, x1) = Ok (dE', dA', x0', x1') /\
    length dE' = uN U /\ length dA' = uN U /\ length x0' = nE * nMdFa * nCr /\ length x1' = nE * nMdFa * nCr /\
    (forall el, ~ (first <= el < first + n) -> nth el dE' [] = nth el dE [] /\ nth el dA' [] = nth el dA []) /\
    (forall el, first <= el < first + n -> holds A cf (nth el dE' []) (nth el dA' []) (fun z => plus A (q el z) (neighTerms U el (out el) (id el) (fun fa => d el fa z)))).
Proof.
  intros G HK HJ Hn LE LA L0 L1 HF. unfold neigh.
  loop (fun m (s : nstate) => let '(dE', dA', x0', x1') := s in length dE' = uN U /\ length dA' = uN U /\ length x0' = nE * nMdFa * nCr /\ length x1' = nE * nMdFa * nCr /\
    (forall el, ~ (first <= el < m) -> nth el dE' [] = nth el dE [] /\ nth el dA' [] = nth el dA []) /\
    (forall el, first <= el < m -> holds A cf (nth el dE' []) (nth el dA' []) (fun z => plus A (q el z) (neighTerms U el (out el) (id el) (fun fa => d el fa z))))) as s E H.
  - lia.
  - do 4 (split; [assumption|]). split; [auto|]. intros; lia.
  - intros el (((dE1 & dA1) & y0) & y1) Hel (H1 & H2 & H3 & H4 & H5 & H6). destruct (HF el Hel) as ((c & Hc & Fi) & HQ). destruct (H5 el ltac:(lia)) as (S1 & S2). rewrite <- S1, <- S2 in HQ.
    destruct (neighEl_ok U K fl M chars firstTs t0s t1s t2s recv J el dE1 dA1 y0 y1 c (out el) (id el) (d el) (q el) G HK HJ ltac:(lia) H1 H2 H3 H4 Hc Fi HQ) as (dE2 & dA2 & z0 & z1 & E & K1 & K2 & K3 & K4 & K5 & K6).
    exists (dE2, dA2, z0, z1). split; [exact E|]. do 4 (split; [assumption|]). split.
    + intros el' N. destruct (K5 el' ltac:(lia)) as (-> & ->). apply H5. lia.
    + intros el' N. destruct (Nat.eq_dec el' el) as [->|X]; [exact K6|]. destruct (K5 el' X) as (-> & ->). apply H6. lia.
  - destruct s as (((dE1 & dA1) & y0) & y1). exists dE1, dA1, y0, y1. split; [reflexivity|exact H].
Qed.
End El.
