(** The kernels for fused forward simulations compute the results of the operator of the element. *)
From Coq Require Import Ring.
From Verif Require Import Util MeshConn MatMul Props_Mat MatSparse Ader AderSpec AderV AderCk AderInt AderGen AderGenV MmXsmm XsmmSpec FakeMats AderFu CscV FuSpec AderFuG.

Section FuV.
Context {T : Type}.
Variables (A : alg T) (cf : conf) (L : xsmm T).
Hypothesis Lcsr : packedCsr A (xCsr L).
Hypothesis Lcsc : packedCsc A (xCsc L).
Local Notation zero := (aZero A).
Local Notation one := (aOne A).
Local Notation add := (aAdd A).
Local Notation sub := (aSub A).
Local Notation mul := (aMul A).
Local Notation div := (aDiv A).
Local Notation opp := (aOpp A).
Local Notation ofN := (aOfN A).
Add Ring TRu : (aRT A).
Local Notation nDi := (nDis (cEl cf)).
Local Notation nMd := (nModes (cEl cf) (cSp cf)).
Local Notation nMdFa := (nModesFa (cEl cf) (cSp cf)).
Local Notation nFa := (nElFas (cEl cf)).
Local Notation ck_ := (nModesCk (cEl cf) (cSp cf)).
Local Notation nE := (nQtsE (cEl cf)).
Local Notation nM := (nQtsM (cEl cf)).
Local Notation nCr := (cCrs cf).
Local Notation nRm := (cRms cf).
Local Notation sum := (sum A).
Local Notation rep := (rep A cf).
Local Notation ent := (ent A).
Local Notation view := (view A cf).
Variables (big small isMax : T -> bool) (maxv : T) (qfma hier : bool) (P : pats).
Hypothesis Tol : tolOk A big small isMax maxv.
Local Notation clean := (clean A big isMax).
Local Notation compressed := (compressed A).

Lemma nE_nM : nE = nM + nDi.
Proof. unfold nQtsE, nQtsM. destruct (cEl cf); reflexivity. Qed.
Lemma sum_shift m n f : sum (m + n) f = add (sum m f) (sum n (fun i => f (m + i))).
Proof. induction n as [|n IH]; [rewrite Nat.add_0_r; cbn; ring|]. rewrite Nat.add_succ_r. cbn [AderSpec.sum]. rewrite IH. ring. Qed.
Lemma rep_zero n l nq : rep nq n l (fun _ _ _ => zero) -> forall i, nth i l zero = zero.
Proof.
  intros R i. assert (R' : rep nq n (repeat zero (length l)) (fun _ _ _ => zero)).
  { split; [rewrite repeat_length; apply R|]. intros. apply nth_repeat. }
  rewrite (rep_inj A cf _ _ _ _ _ R R'). apply nth_repeat.
Qed.
Local Opaque nModes nModesCk nQtsE nQtsM nDis nModesFa nElFas.

Lemma compressed_stored p m n sh v a : compressed p m n sh v a ->
  stored A m (sh + n) (fst p) (snd p) v (fun l x => (fun x l => if l <? sh then zero else ent n a x (l - sh)) x l).
Proof. intros H. exact H. Qed.

(** product with a star, source or flux solver matrix *)
Lemma csr_rep p m n k sh ldB acc v a b c nq fb fc : compressed p m k sh v a -> forall ldC, n <= ldC -> m <= nq -> view (sh + k) n ldB b fb -> rep nq ldC c fc ->
  (acc = true \/ noEmptyRow p m) ->
  exists c', xRun L (csrK cf p (Build_gdesc m n (sh + k) 0 ldB ldC acc)) v b c = Ok c' /\
    rep nq ldC c' (fun z x y => if (x <? m) && (y <? n) then add (if acc then fc z x y else zero) (sum k (fun j => mul (ent k a x j) (fb z (sh + j) y))) else fc z x y).
Proof using Lcsr.
  intros C ldC Hn Hm Vb Rc Hz.
  destruct (csr_run A cf L Lcsr m n (sh + k) 0 ldB ldC acc (fst p) (snd p) v (fun x l => if l <? sh then zero else ent k a x (l - sh)) b c fb fc C Hn Vb (rep_view A cf m n ldC nq c fc Rc Hm Hn)) as (c' & E & S & V).
  { intros x Hx Ne. destruct Hz as [->|Z]; [auto|]. exfalso. exact (Z x Hx Ne). }
  exists c'. split; [exact E|]. eapply rep_ext; [exact (view_rep A cf nq m n ldC c c' fc _ Rc Hn S V)|]. intros z x y Hz' Hx Hy. cbv beta.
  destruct ((x <? m) && (y <? n)); [|reflexivity]. f_equal. rewrite sum_shift, (sum_0 A sh); [|intros l Hl; rewrite (proj2 (Nat.ltb_lt _ _) Hl); ring].
  rewrite (sum_ext A k _ (fun j => mul (ent k a x j) (fb z (sh + j) y))); [ring|]. intros j Hj. destruct (Nat.ltb_spec (sh + j) sh); [lia|]. do 2 f_equal. lia.
Qed.

(** *** Time prediction *)
Section Time.
Variables (ks : list (list packed)) (st : list (list (list T))) (stiffT : list (list T)) (bd : nat -> nat) (rfs : list T) (dT : T).
(** dense matrices and values of the compressed ones *)
Variables (starE starA srcA starEv starAv srcAv : list (list T)) (q0 : nat -> @state T).
Hypothesis Hst : sized nDi (nMd * nMd) stiffT.
Hypothesis Cl : forall di, di < nDi -> clean (nth di stiffT []).
Hypothesis Bl : blocks A cf stiffT bd.
Hypothesis Hier : hier = true -> forall de, 1 <= de < cTi cf -> bd de = nModes (cEl cf) (cSp cf - de).
Hypothesis Full : simplex cf = true -> fullCols A cf stiffT bd.
Hypothesis Gen : genTimeF zero big small isMax maxv qfma hier cf P stiffT = Ok ks.
Hypothesis Sto : storeStiffTF zero opp big small isMax maxv qfma hier cf stiffT = Ok st.
Hypothesis HsE : length starEv = nDi /\ forall di, di < nDi -> compressed (pE P) nE nE 0 (nth di starEv []) (nth di starE []).
Hypothesis HsA : 0 < nRm -> length starAv = nDi /\ forall di, di < nDi -> compressed (pA P) nM nDi nM (nth di starAv []) (nth di starA []).
Hypothesis Hsrc : length srcAv = nRm /\ forall rm, rm < nRm -> compressed (pS P) nM nM 0 (nth rm srcAv []) (nth rm srcA []).
Hypothesis Hrf : length rfs = nRm.
Hypothesis HT : 0 < nRm -> 1 < cTi cf.
Local Notation K := (K A cf stiffT).
Hypothesis Low : lowers A cf K.
Local Notation Ed := (Ed A cf stiffT rfs starE starA srcA q0).
Local Notation power := (pow A cf add K (sE A cf starE) (sA A cf starA) (src A cf srcA) (rf A rfs)).
Local Notation grad := (AderSpec.grad A cf K).
Local Notation re := (re cf).

Lemma Ed_blk d z x y : nRm = 0 -> d < cTi cf -> bd d <= y < nMd -> Ed d z x y = zero.
Proof using Bl.
  clear - Bl. intros R. revert x y. induction d as [|d IH]; intros x y Hd Hy; [rewrite (proj1 Bl) in Hy; lia|].
  unfold AderCk.Ed. cbn [pow op fst]. unfold opE. rewrite R. cbn [AderSpec.sum].
  assert (E : sum nDi (fun di => sum nE (fun j => mul (sE A cf starE di x j) (grad di (fst (power d (q0 z))) j y))) = zero).
  { apply (sum_0 A). intros di Hdi. apply (sum_0 A). intros j Hj.
    replace (grad di (fst (power d (q0 z))) j y) with zero; [ring|]. symmetry. apply (sum_0 A). intros l Hl.
    destruct (Nat.lt_ge_cases l (bd d)) as [C|C].
    - unfold AderCk.K. destruct (proj2 Bl (S d) ltac:(lia)) as (_ & _ & Bz & _). rewrite Bz by (replace (S d - 1) with d by lia; auto; lia). ring.
    - fold (Ed d z j l). rewrite IH by lia. ring. }
  rewrite E. destruct (x <? nM); ring.
Qed.
Lemma grad_blk de di z x y : 1 <= de < cTi cf -> di < nDi -> y < nMd ->
  grad di (fst (power (de - 1) (q0 z))) x y = if y <? bd (re de) then sum (bd (re de - 1)) (fun l => mul (Ed (de - 1) z x l) (K di l y)) else zero.
Proof using Bl.
  clear - Bl. intros Hde Hdi Hy. change (grad di (fst (power (de - 1) (q0 z))) x y) with (sum nMd (fun l => mul (Ed (de - 1) z x l) (K di l y))).
  assert (Bz := fun d H => proj1 (proj2 (proj2 (proj2 Bl d H)))). unfold AderCk.re. destruct (Nat.eqb_spec nRm 0) as [R|R].
  - assert (bd (de - 1) <= nMd) by (destruct (Nat.eq_dec de 1) as [->|N]; [cbn; rewrite (proj1 Bl); auto|apply (proj2 Bl (de - 1)); lia]).
    destruct (Nat.ltb_spec y (bd de)) as [C|C].
    + apply (sum_le A); [auto|]. intros l Hl. rewrite Ed_blk by (auto; lia). ring.
    + apply (sum_0 A). intros l Hl. destruct (Nat.lt_ge_cases l (bd (de - 1))) as [D|D].
      * unfold AderCk.K. rewrite (Bz de Hde) by (auto; lia). ring.
      * rewrite Ed_blk by (auto; lia). ring.
  - cbn [Nat.sub]. rewrite (proj1 Bl). destruct (Nat.ltb_spec y (bd 1)) as [C|C]; [reflexivity|].
    apply (sum_0 A). intros l Hl. unfold AderCk.K. rewrite (Bz 1 ltac:(lia)); [ring|auto|cbn; rewrite (proj1 Bl); auto|lia].
Qed.

Lemma ckFused_ok dofsE dofsA junk scr dE dA tE tA : 1 <= cTi cf -> length junk = nM * nMd * nCr -> length scr = nE * nMd * nCr -> goodE cf dE -> goodA cf dA ->
  length tE = nE * nMd * nCr -> sized nRm (nM * nMd * nCr) tA -> length dofsA = nRm ->
  rep nE nMd dofsE (fun z => fst (q0 z)) -> (forall rm, rm < nRm -> rep nM nMd (nth rm dofsA []) (fun z => snd (q0 z) rm)) ->
  exists s, ckFused zero add mul div ofN L cf ks st rfs dT starEv starAv srcAv dofsE dofsA junk scr dE dA tE tA = Ok s /\
    ckInv A cf stiffT rfs dT starE starA srcA q0 (cTi cf) s.
Proof.
  destruct (genTimeF_ok A cf big small isMax maxv qfma hier P Tol stiffT bd Hst Cl Bl Hier HT) as (mats & ks' & st' & Gen' & Sto' & Vm & K0 & K1 & K2).
  rewrite Gen in Gen'. injection Gen' as <-. rewrite Sto in Sto'. injection Sto' as <-.
  assert (NM := nM_nE cf). unfold ckFused.
  apply ckG_ok; auto.
  - intros de di p scr0 Hde Hdi Rp Ls.
    assert (Hre : 1 <= re de < cTi cf) by (unfold AderCk.re; destruct (nRm =? 0); lia).
    assert (Bp : forall d, d < cTi cf -> 0 < bd d <= nMd) by (intros d Hd; destruct d; [rewrite (proj1 Bl); destruct (proj2 Bl 1 ltac:(lia)); lia|apply (proj2 Bl); lia]).
    assert (P1 := Bp (re de) ltac:(lia)). assert (P0 := Bp (re de - 1) ltac:(lia)).
    destruct Vm as (_ & Vm). destruct (Vm (re de) di ltac:(lia) Hdi) as (s & Hs & (Ls1 & Ss)). destruct (K0 (re de) di s Hre Hdi Hs) as (Kk0 & v & Ev & Lv & Vv).
    assert (Kk1 := K1 (re de) Hre).
    assert (Z0 : exists scr1, (match cEl cf with TET4 | TRIA3 => Ok scr0 | _ => zeroE zero cf nE scr0 end) = Ok scr1 /\ length scr1 = nE * nMd * nCr /\
      (simplex cf = false -> forall i, nth i scr1 zero = zero)).
    { destruct (zeroE_ok A cf nE scr0 Ls) as (s0 & E0 & R0). unfold simplex. destruct (cEl cf) eqn:El.
      - exists s0. split; [exact E0|]. split; [apply R0|]. intros _. exact (rep_zero _ _ _ R0).
      - exists scr0. split; [reflexivity|]. split; [auto|discriminate].
      - exists s0. split; [exact E0|]. split; [apply R0|]. intros _. exact (rep_zero _ _ _ R0).
      - exists scr0. split; [reflexivity|]. split; [auto|discriminate]. }
    destruct Z0 as (scr1 & E0 & L1 & Z1). unfold fStiffT. rewrite E0. cbn [bind]. clear E0. rewrite Kk0. cbn [bind]. rewrite Ev. cbn [bind].
    assert (Sk : stored A (bd (re de)) (bd (re de - 1)) (cPtr s) (cIdx s) v (fun l y => K di l y)).
    { eapply (stored_map A opp); [ring|exact Ss|reflexivity|rewrite Ls1; exact Lv|rewrite Ls1; exact Vv]. }
    assert (Bs : nE * bd (re de) * nCr <= length scr1) by (rewrite L1; apply Nat.mul_le_mono_r, Nat.mul_le_mono_l; lia).
    destruct (csc_run A cf L Lcsc nE (bd (re de)) (bd (re de - 1)) nMd 0 (bd (re de)) false (cPtr s) (cIdx s) v (fun l y => K di l y) p scr1 (Ed (de - 1)) _ Sk (le_n _)
      (rep_view A cf nE (bd (re de - 1)) nMd nE p _ Rp (le_n _) (proj2 P0)) (view_any A cf nE (bd (re de)) (bd (re de)) scr1 (le_n _) Bs)) as (scr2 & Er & (L2 & _) & Vs).
    { intros y Hy Ne. right. intros z x Hz Hx. destruct (simplex cf) eqn:Sx; [|apply Z1; reflexivity]. exfalso. destruct (Full eq_refl (re de) di y Hre Hdi Hy) as (l & Hl & N). apply N.
      exact (stored_none A _ _ _ _ _ _ y l Ss Hy Hl Ne). }
    unfold cscK, tD0. rewrite Er. exists scr2. split; [reflexivity|]. split; [lia|].
    assert (Rg : view nE (bd (re de)) (bd (re de)) scr2 (fun z x y => grad di (fst (power (de - 1) (q0 z))) x y)).
    { eapply view_ext; [exact Vs|]. intros z x y Hz Hx Hy. cbv beta. rewrite grad_blk by (auto; lia). rewrite (proj2 (Nat.ltb_lt _ _) Hy). ring. }
    split.
    + intros e fe Re. unfold fStarE. rewrite Kk1. cbn [bind]. destruct HsE as (LsE & CsE). rewrite (rd_ok _ _ []) by lia. cbn [bind].
      destruct (csr_rep (pE P) nE (bd (re de)) nE 0 (bd (re de)) true (nth di starEv []) (nth di starE []) scr2 e nE _ fe (CsE di Hdi) nMd ltac:(lia) (le_n _) Rg Re (or_introl eq_refl)) as (e2 & Er2 & Re2).
      unfold tD1. cbn [Nat.add] in Er2. rewrite Er2. exists e2. split; [reflexivity|]. eapply rep_ext; [exact Re2|]. intros z x y Hz Hx Hy. cbv beta. rewrite (proj2 (Nat.ltb_lt _ _) Hx). cbn [andb].
      destruct (Nat.ltb_spec y (bd (re de))) as [C|C]; [reflexivity|]. rewrite (sum_0 A nE); [ring|]. intros j Hj. rewrite grad_blk by (auto; lia). destruct (Nat.ltb_spec y (bd (re de))); [lia|]. ring.
    + intros R sa fs Rs. destruct (K2 R) as (Kk2 & _). unfold fStarA. rewrite Kk2. cbn [bind]. destruct (HsA R) as (LsA & CsA). rewrite (rd_ok _ _ []) by lia. cbn [bind].
      assert (R1 : re de = 1) by (unfold AderCk.re; destruct (Nat.eqb_spec nRm 0); lia). rewrite R1 in *.
      assert (Rg' : view (nM + nDi) (bd 1) (bd 1) scr2 (fun z x y => grad di (fst (power (de - 1) (q0 z))) x y)) by (rewrite <- nE_nM; exact Rg).
      destruct (csr_rep (pA P) nM (bd 1) nDi nM (bd 1) true (nth di starAv []) (nth di starA []) scr2 sa nM _ fs (CsA di Hdi) nMd ltac:(lia) (le_n _) Rg' Rs (or_introl eq_refl)) as (sa2 & Er2 & Rs2).
      unfold tD2. rewrite <- nE_nM in Er2. rewrite Er2. exists sa2. split; [reflexivity|]. eapply rep_ext; [exact Rs2|]. intros z x y Hz Hx Hy. cbv beta. rewrite (proj2 (Nat.ltb_lt _ _) Hx). cbn [andb].
      destruct (Nat.ltb_spec y (bd 1)) as [C|C]; [reflexivity|]. rewrite (sum_0 A nDi); [ring|]. intros j Hj. rewrite grad_blk by (auto; lia). rewrite R1. destruct (Nat.ltb_spec y (bd 1)); [lia|]. ring.
  - intros _ rm p e f fe Hrm Rp Re. destruct (K2 ltac:(lia)) as (_ & Kk). unfold fSrc. rewrite Kk. cbn [bind]. destruct Hsrc as (LsS & CsS). rewrite (rd_ok _ _ []) by lia. cbn [bind].
    destruct (csr_rep (pS P) nM nMd nM 0 nMd true (nth rm srcAv []) (nth rm srcA []) p e nE f fe (CsS rm Hrm) nMd (le_n _) ltac:(lia) (rep_view A cf nM nMd nMd nM p f Rp (le_n _) (le_n _)) Re (or_introl eq_refl)) as (e2 & Er2 & Re2).
    unfold tD3. cbn [Nat.add] in Er2. rewrite Er2. exists e2. split; [reflexivity|]. eapply rep_ext; [exact Re2|]. intros z x y Hz Hx Hy. cbv beta. rewrite (proj2 (Nat.ltb_lt _ _) Hy), andb_true_r.
    destruct (x <? nM); [reflexivity|ring].
Qed.
End Time.

(** *** Volume *)
Section Vol.
Variables (ks : list (list packed)) (st : list (list T)) (stiff : list (list T)) (br : nat) (rfs : list T).
Variables (starE starA srcA starEv starAv srcAv : list (list T)).
Hypothesis Hst : sized nDi (nMd * nMd) stiff.
Hypothesis Cl : forall di, di < nDi -> clean (nth di stiff []).
Hypothesis Bl : rowBlock A cf stiff br.
Hypothesis Hier : hier = true -> br = nModes (cEl cf) (cSp cf - 1).
Hypothesis Ord : 0 < nRm -> colOrder A cf stiff.
Hypothesis Kn : qfma = false.
Hypothesis Gen : genVolF zero big small isMax maxv qfma hier cf P stiff = Ok ks.
Hypothesis Sto : storeStiffF zero big small isMax maxv qfma hier cf stiff = Ok st.
Hypothesis HsE : length starEv = nDi /\ forall di, di < nDi -> compressed (pE P) nE nE 0 (nth di starEv []) (nth di starE []).
Hypothesis Ne : noEmptyRow (pE P) nE.
Hypothesis HsA : 0 < nRm -> length starAv = nDi /\ forall di, di < nDi -> compressed (pA P) nM nDi nM (nth di starAv []) (nth di starA []).
Hypothesis Hsrc : length srcAv = nRm /\ forall rm, rm < nRm -> compressed (pS P) nM nM 0 (nth rm srcAv []) (nth rm srcA []).
Hypothesis Hrf : length rfs = nRm.
Local Notation Kv := (Kv A cf stiff).
Local Notation opE := (opE A cf Kv (sE A cf starE) (src A cf srcA)).
Local Notation opA := (opA A cf sub Kv (sA A cf starA) (rf A rfs)).
Local Notation grad := (grad A cf Kv).

Lemma grad_rows di (t : nat -> nat -> T) x y : di < nDi -> y < nMd -> grad di t x y = sum br (fun l => mul (t x l) (Kv di l y)).
Proof.
  intros Hdi Hy. destruct Bl as (Bp & Bz & _). unfold AderSpec.grad. apply (sum_le A); [lia|]. intros l Hl. unfold AderInt.Kv. rewrite Bz by auto. ring.
Qed.

Lemma volFused_ok tE tA junk dofsE dofsA scr (q : nat -> @state T) fE fA :
  length junk = nM * nMd * nCr -> length scr = nE * nMd * nCr ->
  rep nE nMd tE (fun z => fst (q z)) -> length tA = nRm -> (forall rm, rm < nRm -> rep nM nMd (nth rm tA []) (fun z => snd (q z) rm)) ->
  rep nE nMd dofsE fE -> length dofsA = nRm -> (forall rm, rm < nRm -> rep nM nMd (nth rm dofsA []) (fA rm)) ->
  exists dofsE' dofsA' scr', volFused zero add sub mul L cf ks st rfs starEv starAv srcAv tE tA junk dofsE dofsA scr = Ok (dofsE', dofsA', scr') /\ length scr' = nE * nMd * nCr /\
    rep nE nMd dofsE' (fun z x y => add (fE z x y) (opE (q z) x y)) /\ length dofsA' = nRm /\
    (forall rm, rm < nRm -> rep nM nMd (nth rm dofsA' []) (fun z x y => add (fA rm z x y) (opA (q z) rm x y))).
Proof.
  intros Lj Ls RtE LtA RtA RdE LdA RdA.
  destruct (genVolF_ok A cf big small isMax maxv qfma hier P Tol stiff br Hst Cl Bl Hier) as (mats & ks' & st' & Gen' & Sto' & K0 & K1 & K2).
  rewrite Gen in Gen'. injection Gen' as <-. rewrite Sto in Sto'. injection Sto' as <-.
  assert (NM := nM_nE cf). assert (Bp : 0 < br <= nMd) by apply Bl. unfold volFused.
  assert (Z : exists s0, (if 0 <? nRm then zeroE zero cf nM junk else Ok junk) = Ok s0 /\ (0 < nRm -> rep nM nMd s0 (fun _ _ _ => zero))).
  { destruct (zeroE_ok A cf nM junk Lj) as (s0 & E0 & R0). destruct (0 <? nRm) eqn:R; [exists s0; auto|]. exists junk. split; [auto|]. apply Nat.ltb_ge in R. intros; lia. }
  destruct Z as (s0 & E0 & R0). rewrite E0. cbn [bind]. clear E0.
  assert (Z : exists c0, (if 0 <? nRm then zeroE zero cf nE scr else Ok scr) = Ok c0 /\ length c0 = nE * nMd * nCr /\ (0 < nRm -> rep nE nMd c0 (fun _ _ _ => zero))).
  { destruct (zeroE_ok A cf nE scr Ls) as (c0 & E0 & Rc). destruct (0 <? nRm) eqn:R; [exists c0; split; [auto|]; split; [apply Rc|auto]|]. exists scr. split; [auto|]. split; [auto|]. apply Nat.ltb_ge in R. intros; lia. }
  destruct Z as (c0 & E0 & Lc0 & Rc0). rewrite E0. cbn [bind]. clear E0.
  set (GEd := fun di x y z => sum di (fun d' => sum nE (fun j => mul (sE A cf starE d' x j) (grad d' (fst (q z)) j y)))).
  set (GAd := fun di x y z => sum di (fun d' => sum nDi (fun j => mul (sA A cf starA d' x j) (grad d' (fst (q z)) (nM + j) y)))).
  set (untouched := fun di y => forall d' l, d' < di -> l < nMd -> Kv d' l y = zero).
  loop (fun di (s : list T * list T * list T) => let '(scr, dE, sa) := s in length scr = nE * nMd * nCr /\
    (0 < nRm -> exists fs, rep nE nMd scr fs /\ forall z x y, z < nCr -> x < nE -> y < nMd -> untouched di y -> fs z x y = zero) /\
    rep nE nMd dE (fun z x y => add (fE z x y) (GEd di x y z)) /\ (0 < nRm -> rep nM nMd sa (fun z x y => GAd di x y z))) as s1 E1 H1.
  - lia.
  - split; [auto|]. split; [intros R; exists (fun _ _ _ => zero); auto|]. split; [eapply rep_ext; [exact RdE|]; intros; unfold GEd; cbn [AderSpec.sum]; ring|]. intros R. exact (R0 R).
  - intros di ((scr1 & dE1) & sa1) Hdi (L1 & Rsc & Re & Rs). destruct (K0 di ltac:(lia)) as (s & Hs & (Ls1 & Ss & Ssb) & Kk0 & v & Ev & Lv & Vv).
    assert (Sk : stored A nMd br (cPtr s) (cIdx s) v (fun l y => Kv di l y)).
    { eapply (stored_map A (fun t => t)); [reflexivity|exact (Ssb Kn)|reflexivity|rewrite Ls1; exact Lv|rewrite Ls1; exact Vv]. }
    destruct HsE as (LsE & CsE). unfold fStarE. rewrite K1. cbn [bind]. rewrite (rd_ok _ _ []) by lia. cbn [bind]. rewrite Kk0. cbn [bind]. rewrite Ev. cbn [bind].
    unfold vD0, vD1, vN, csrK, cscK. destruct (Nat.eqb_spec nRm 0) as [R|R]; cbn [negb].
    + assert (Bs : nE * br * nCr <= length scr1) by (rewrite L1; apply Nat.mul_le_mono_r, Nat.mul_le_mono_l; lia).
      destruct (csr_run A cf L Lcsr nE br nE 0 nMd br false (fst (pE P)) (snd (pE P)) (nth di starEv []) (fun x l => sE A cf starE di x l) tE scr1 (fun z => fst (q z)) (fun z x y => nth (pos nCr br x y z) scr1 zero)) as (scr2 & Er & (L2 & _) & Vs).
      { eapply stored_ext; [exact (CsE di ltac:(lia))|]. intros c r Hc Hr. unfold sE. cbn. now rewrite Nat.sub_0_r. }
      { auto. }
      { apply (rep_view A cf nE br nMd nE); auto. lia. }
      { apply view_any; [auto|exact Bs]. }
      { intros x Hx Nx. exfalso. exact (Ne x Hx Nx). }
      rewrite Er. cbn [bind]. clear Er.
      destruct (csc_run A cf L Lcsc nE nMd br br 0 nMd true (cPtr s) (cIdx s) v (fun l y => Kv di l y) scr2 dE1 _ _ Sk (le_n _) Vs (rep_view A cf nE nMd nMd nE dE1 _ Re (le_n _) (le_n _)) ltac:(auto)) as (e2 & Er & Se & Ve).
      rewrite Er. cbn [bind]. clear Er. eexists. split; [reflexivity|]. split; [lia|]. split; [intros; lia|]. split; [|intros; lia].
      eapply rep_ext; [exact (view_rep A cf nE nE nMd nMd dE1 e2 _ _ Re (le_n _) Se Ve)|]. intros z x y Hz Hx Hy. cbv beta. rewrite (proj2 (Nat.ltb_lt _ _) Hx), (proj2 (Nat.ltb_lt _ _) Hy). cbn [andb].
      unfold GEd. cbn [AderSpec.sum]. rewrite (sum_ext A nE _ (fun j => sum br (fun l => mul (sE A cf starE di x j) (mul (fst (q z) j l) (Kv di l y))))).
      2: { intros j Hj. rewrite grad_rows by (auto; lia). now rewrite (sum_mul A). }
      rewrite (sum_swap A nE br). rewrite (sum_ext A br _ (fun l => sum nE (fun j => mul (sE A cf starE di x j) (mul (fst (q z) j l) (Kv di l y))))); [ring|].
      intros l Hl. rewrite (sum_ext A nE (fun j => mul (sE A cf starE di x j) (mul (fst (q z) j l) (Kv di l y))) (fun j => mul (Kv di l y) (mul (sE A cf starE di x j) (fst (q z) j l)))) by (intros; ring).
      rewrite (sum_mul A). ring.
    + destruct (Rsc ltac:(lia)) as (fs & Rfs & Zfs).
      destruct (csc_run A cf L Lcsc nE nMd br nMd 0 nMd false (cPtr s) (cIdx s) v (fun l y => Kv di l y) tE scr1 (fun z => fst (q z)) fs Sk (le_n _)
        (rep_view A cf nE br nMd nE tE _ RtE (le_n _) ltac:(lia)) (rep_view A cf nE nMd nMd nE scr1 fs Rfs (le_n _) (le_n _))) as (scr2 & Er & Se & Ve).
      { intros y Hy Ny. right. intros z x Hz Hx. apply Zfs; auto. intros d' l Hd Hl. apply (Ord ltac:(lia) di y ltac:(lia) Hy); auto.
        intros l' Hl'. exact (stored_none A _ _ _ _ _ _ y l' Ss Hy Hl' Ny). }
      rewrite Er. cbn [bind]. clear Er.
      assert (Rg : rep nE nMd scr2 (fun z x y => grad di (fst (q z)) x y)).
      { eapply rep_ext; [exact (view_rep A cf nE nE nMd nMd scr1 scr2 fs _ Rfs (le_n _) Se Ve)|]. intros z x y Hz Hx Hy. cbv beta. rewrite (proj2 (Nat.ltb_lt _ _) Hx), (proj2 (Nat.ltb_lt _ _) Hy). cbn [andb].
        rewrite grad_rows by (auto; lia). ring. }
      destruct (csr_rep (pE P) nE nMd nE 0 nMd true (nth di starEv []) (nth di starE []) scr2 dE1 nE _ _ (CsE di ltac:(lia)) nMd (le_n _) (le_n _)
        (rep_view A cf nE nMd nMd nE scr2 _ Rg (le_n _) (le_n _)) Re (or_introl eq_refl)) as (e2 & Er2 & Re2).
      unfold csrK in Er2. cbn [Nat.add] in Er2. rewrite Er2. cbn [bind]. clear Er2.
      unfold fStarA. destruct (K2 ltac:(lia)) as (Kk2 & _). rewrite Kk2. cbn [bind]. destruct (HsA ltac:(lia)) as (LsA & CsA). rewrite (rd_ok _ _ []) by lia. cbn [bind].
      destruct (csr_rep (pA P) nM nMd nDi nM nMd true (nth di starAv []) (nth di starA []) scr2 sa1 nM _ _ (CsA di ltac:(lia)) nMd (le_n _) (le_n _)
        (rep_view A cf (nM + nDi) nMd nMd nE scr2 _ Rg NM (le_n _)) (Rs ltac:(lia)) (or_introl eq_refl)) as (sa2 & Er2 & Rs2).
      unfold vD2. rewrite <- nE_nM in Er2. rewrite Er2. cbn [bind]. clear Er2. eexists. split; [reflexivity|]. split; [apply Rg|]. split; [|split].
      * intros _. exists (fun z x y => grad di (fst (q z)) x y). split; [exact Rg|]. intros z x y Hz Hx Hy U. unfold AderSpec.grad. apply (sum_0 A). intros l Hl. rewrite U by auto. ring.
      * eapply rep_ext; [exact Re2|]. intros z x y Hz Hx Hy. cbv beta. rewrite (proj2 (Nat.ltb_lt _ _) Hx), (proj2 (Nat.ltb_lt _ _) Hy). cbn [andb]. unfold GEd, sE. cbn [AderSpec.sum Nat.add]. ring.
      * intros _. eapply rep_ext; [exact Rs2|]. intros z x y Hz Hx Hy. cbv beta. rewrite (proj2 (Nat.ltb_lt _ _) Hx), (proj2 (Nat.ltb_lt _ _) Hy). cbn [andb]. unfold GAd, sA. cbn [AderSpec.sum]. ring.
  - destruct s1 as ((scr1 & dE1) & sa1). destruct H1 as (L1 & _ & Re1 & Rs1). cbn [bind].
    destruct (volRm_ok A cf rfs srcA (fSrc L ks srcAv) tA sa1 dE1 dofsA (fun rm z => snd (q z) rm) (fun z x y => add (fE z x y) (GEd nDi x y z)) (fun z x y => GAd nDi x y z) fA Hrf) as (dE2 & dA2 & Er & Re & LA2 & New); auto.
    + intros rm p e f fe Hrm Rp Re. destruct (K2 ltac:(lia)) as (_ & Kk). unfold fSrc. rewrite Kk. cbn [bind]. destruct Hsrc as (LsS & CsS). rewrite (rd_ok _ _ []) by lia. cbn [bind].
      destruct (csr_rep (pS P) nM nMd nM 0 nMd true (nth rm srcAv []) (nth rm srcA []) p e nE f fe (CsS rm Hrm) nMd (le_n _) ltac:(lia) (rep_view A cf nM nMd nMd nM p f Rp (le_n _) (le_n _)) Re (or_introl eq_refl)) as (e2 & Er2 & Re2).
      unfold vD3. cbn [Nat.add] in Er2. rewrite Er2. exists e2. split; [reflexivity|]. eapply rep_ext; [exact Re2|]. intros z x y Hz Hx Hy. cbv beta. rewrite (proj2 (Nat.ltb_lt _ _) Hy), andb_true_r.
      destruct (x <? nM); [reflexivity|ring].
    + rewrite Er. cbn [bind]. exists dE2, dA2, scr1. split; [reflexivity|]. split; [auto|]. split; [|split; [auto|exact New]].
      eapply rep_ext; [exact Re|]. intros z x y Hz Hx Hy. cbv beta. unfold AderSpec.opE. fold (GEd nDi x y z). ring.
Qed.
End Vol.

(** *** Surface *)
Section Surf.
Variables (ks : list (list packed)) (ln tr fIntLN fIntT : list (list T)).
Local Notation nLN := (nFa + nFluxN (cEl cf)).
Hypothesis Hln : sized nLN (nMd * nMdFa) fIntLN.
Hypothesis Htr : sized nFa (nMdFa * nMd) fIntT.
Hypothesis Cln : forall i, i < nLN -> clean (nth i fIntLN []).
Hypothesis Ctr : forall i, i < nFa -> clean (nth i fIntT []).
Hypothesis Cols : fluxCols A cf fIntLN.
Hypothesis Gen : genSurfF zero big small isMax maxv qfma cf P fIntLN fIntT = Ok ks.
Hypothesis Sto : storeFluxF zero big small isMax maxv qfma cf fIntLN fIntT = Ok (ln, tr).
Local Notation faceInt := (faceInt A cf).

Lemma kernS : (forall i, i < nLN -> exists s v, lnMat A cf fIntLN i s /\ xKern ks 0 i = Ok (cscK cf s (sD0 cf)) /\ rd ln i = Ok v /\ valsOf A s v) /\
  (forall i, i < nFa -> exists s v, trMat A cf fIntT i s /\ xKern ks 2 i = Ok (cscK cf s (sD2 cf)) /\ xKern ks 4 i = Ok (cscK cf s (sD4 cf)) /\ rd tr i = Ok v /\ valsOf A s v) /\
  xKern ks 1 0 = Ok (csrK cf (pFE P) (sD1 cf)) /\ (0 < nRm -> xKern ks 3 0 = Ok (csrK cf (pFA P) (sD3 cf))).
Proof.
  destruct (genSurfF_ok A cf big small isMax maxv qfma P Tol fIntLN fIntT Hln Htr Cln Ctr) as (ks' & ln' & tr' & Gen' & Sto' & K0 & K1 & K2 & K3).
  rewrite Gen in Gen'. injection Gen' as <-. rewrite Sto in Sto'. injection Sto' as <- <-. auto.
Qed.

Lemma fLN_ok id t q o : id < nLN -> rep nE nMd t q -> length o = nE * nMdFa * nCr ->
  exists o', fLN L ks ln id t o = Ok o' /\ rep nE nMdFa o' (fun z => faceInt (nth id fIntLN []) (q z)).
Proof.
  intros Hid Rt Lo. destruct kernS as (K0 & _). destruct (K0 id Hid) as (s & v & (Ls & Ss) & Kk & Ev & Lv & Vv). unfold fLN. rewrite Kk. cbn [bind]. rewrite Ev. cbn [bind]. unfold cscK, sD0.
  assert (Sk : stored A nMdFa nMd (cPtr s) (cIdx s) v (fun l y => ent nMdFa (nth id fIntLN []) l y)).
  { eapply (stored_map A (fun t => t)); [reflexivity|exact Ss|reflexivity|rewrite Ls; exact Lv|rewrite Ls; exact Vv]. }
  assert (Ro := rep_any A cf nE nMdFa o Lo).
  destruct (csc_run A cf L Lcsc nE nMdFa nMd nMd 0 nMdFa false (cPtr s) (cIdx s) v _ t o q _ Sk (le_n _) (rep_view A cf nE nMd nMd nE t q Rt (le_n _) (le_n _))
    (rep_view A cf nE nMdFa nMdFa nE o _ Ro (le_n _) (le_n _))) as (o' & E & So & Vo).
  { intros y Hy Ny. exfalso. destruct (Cols id y Hid Hy) as (l & Hl & N). apply N. exact (stored_none A _ _ _ _ _ _ y l Ss Hy Hl Ny). }
  exists o'. split; [exact E|]. eapply rep_ext; [exact (view_rep A cf nE nE nMdFa nMdFa o o' _ _ Ro (le_n _) So Vo)|]. intros z x y Hz Hx Hy. cbv beta.
  rewrite (proj2 (Nat.ltb_lt _ _) Hx), (proj2 (Nat.ltb_lt _ _) Hy). cbn [andb]. unfold AderSpec.faceInt. ring.
Qed.
Lemma fFsE_ok f F fi g s : compressed (pFE P) nE nE 0 f F -> noEmptyRow (pFE P) nE -> rep nE nMdFa fi g -> length s = nE * nMdFa * nCr ->
  exists s', fFs L ks 1 f fi s = Ok s' /\ rep nE nMdFa s' (fun z x m => sum nE (fun j => mul (ent nE F x j) (g z j m))).
Proof.
  intros Cf Nf Rf Ls. destruct kernS as (_ & _ & K1 & _). unfold fFs. rewrite K1. cbn [bind]. assert (Ro := rep_any A cf nE nMdFa s Ls).
  destruct (csr_rep (pFE P) nE nMdFa nE 0 nMdFa false f F fi s nE g _ Cf nMdFa (le_n _) (le_n _) (rep_view A cf nE nMdFa nMdFa nE fi g Rf (le_n _) (le_n _)) Ro (or_intror Nf)) as (s' & E & R).
  unfold sD1. cbn [Nat.add] in E. rewrite E. exists s'. split; [reflexivity|]. eapply rep_ext; [exact R|]. intros z x y Hz Hx Hy. cbv beta.
  rewrite (proj2 (Nat.ltb_lt _ _) Hx), (proj2 (Nat.ltb_lt _ _) Hy). cbn [andb Nat.add]. ring.
Qed.
(** the kernel is generated for [nM] rows of the second matrix, although the flux solver has [nE] columns *)
Lemma fFsA_ok f F fi g s : ignoresK (xCsr L) -> 0 < nRm -> compressed (pFA P) nM nE 0 f F -> noEmptyRow (pFA P) nM -> rep nE nMdFa fi g -> length s = nE * nMdFa * nCr ->
  exists s' r, fFs L ks 3 f fi s = Ok s' /\ rep nE nMdFa s' r /\ forall z x m, z < nCr -> x < nM -> m < nMdFa -> r z x m = sum nE (fun j => mul (ent nE F x j) (g z j m)).
Proof.
  intros Ig HR Cf Nf Rf Ls. destruct kernS as (_ & _ & _ & K1). assert (NM := nM_nE cf). unfold fFs. rewrite (K1 HR). cbn [bind]. assert (Ro := rep_any A cf nE nMdFa s Ls).
  destruct (csr_rep (pFA P) nM nMdFa nE 0 nMdFa false f F fi s nE g _ Cf nMdFa (le_n _) ltac:(lia) (rep_view A cf nE nMdFa nMdFa nE fi g Rf (le_n _) (le_n _)) Ro (or_intror Nf)) as (s' & E & R).
  unfold sD3, csrK, xRun in *. cbn [kCsr kD kPtr kIdx kCrs Nat.add] in *. rewrite (Ig nM nMdFa nM nE), E. exists s', (fun z x y => if (x <? nM) && (y <? nMdFa) then add zero (sum nE (fun j => mul (ent nE F x j) (g z j y))) else nth (pos nCr nMdFa x y z) s zero).
  split; [reflexivity|]. split; [exact R|]. intros z x y Hz Hx Hy. rewrite (proj2 (Nat.ltb_lt _ _) Hx), (proj2 (Nat.ltb_lt _ _) Hy). cbn [andb]. ring.
Qed.
Lemma fT_ok fa s g d fd : fa < nFa -> rep nE nMdFa s g -> rep nE nMd d fd ->
  exists d', fT L ks 2 tr fa s d = Ok d' /\ rep nE nMd d' (fun z x y => add (fd z x y) (sum nMdFa (fun m => mul (g z x m) (ent nMd (nth fa fIntT []) m y)))).
Proof.
  intros Hfa Rs Rd. destruct kernS as (_ & K0 & _). destruct (K0 fa Hfa) as (c & v & (Ls & Ss) & Kk & _ & Ev & Lv & Vv). unfold fT. rewrite Kk. cbn [bind]. rewrite Ev. cbn [bind]. unfold cscK, sD2.
  assert (Sk : stored A nMd nMdFa (cPtr c) (cIdx c) v (fun l y => ent nMd (nth fa fIntT []) l y)).
  { eapply (stored_map A (fun t => t)); [reflexivity|exact Ss|reflexivity|rewrite Ls; exact Lv|rewrite Ls; exact Vv]. }
  destruct (csc_run A cf L Lcsc nE nMd nMdFa nMdFa 0 nMd true (cPtr c) (cIdx c) v _ s d g fd Sk (le_n _) (rep_view A cf nE nMdFa nMdFa nE s g Rs (le_n _) (le_n _))
    (rep_view A cf nE nMd nMd nE d fd Rd (le_n _) (le_n _)) ltac:(auto)) as (d' & E & So & Vo).
  exists d'. split; [exact E|]. eapply rep_ext; [exact (view_rep A cf nE nE nMd nMd d d' _ _ Rd (le_n _) So Vo)|]. intros z x y Hz Hx Hy. cbv beta.
  now rewrite (proj2 (Nat.ltb_lt _ _) Hx), (proj2 (Nat.ltb_lt _ _) Hy).
Qed.
Lemma fTA_ok fa s g d fd : fa < nFa -> rep nE nMdFa s g -> rep nM nMd d fd ->
  exists d', fT L ks 4 tr fa s d = Ok d' /\ rep nM nMd d' (fun z x y => add (fd z x y) (sum nMdFa (fun m => mul (g z x m) (ent nMd (nth fa fIntT []) m y)))).
Proof.
  intros Hfa Rs Rd. assert (NM := nM_nE cf). destruct kernS as (_ & K0 & _). destruct (K0 fa Hfa) as (c & v & (Ls & Ss) & _ & Kk & Ev & Lv & Vv). unfold fT. rewrite Kk. cbn [bind]. rewrite Ev. cbn [bind]. unfold cscK, sD4.
  assert (Sk : stored A nMd nMdFa (cPtr c) (cIdx c) v (fun l y => ent nMd (nth fa fIntT []) l y)).
  { eapply (stored_map A (fun t => t)); [reflexivity|exact Ss|reflexivity|rewrite Ls; exact Lv|rewrite Ls; exact Vv]. }
  destruct (csc_run A cf L Lcsc nM nMd nMdFa nMdFa 0 nMd true (cPtr c) (cIdx c) v _ s d g fd Sk (le_n _) (rep_view A cf nM nMdFa nMdFa nE s g Rs ltac:(lia) (le_n _))
    (rep_view A cf nM nMd nMd nM d fd Rd (le_n _) (le_n _)) ltac:(auto)) as (d' & E & So & Vo).
  exists d'. split; [exact E|]. eapply rep_ext; [exact (view_rep A cf nM nM nMd nMd d d' _ _ Rd (le_n _) So Vo)|]. intros z x y Hz Hx Hy. cbv beta.
  now rewrite (proj2 (Nat.ltb_lt _ _) Hx), (proj2 (Nat.ltb_lt _ _) Hy).
Qed.
End Surf.
End FuV.
