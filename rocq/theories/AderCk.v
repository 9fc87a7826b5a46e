(** The Cauchy-Kowalevski procedure computes the powers of the operator of the element. *)
From Coq Require Import Ring.
From Verif Require Import Util MeshConn MatMul Props_Mat Ader AderSpec AderV.

Section Ck.
Context {T : Type}.
Variables (A : alg T) (cf : conf).
Local Notation zero := (aZero A).
Local Notation one := (aOne A).
Local Notation add := (aAdd A).
Local Notation sub := (aSub A).
Local Notation mul := (aMul A).
Local Notation div := (aDiv A).
Local Notation opp := (aOpp A).
Local Notation ofN := (aOfN A).
Local Notation isz := (aIsz A).
Add Ring TR2 : (aRT A).
Local Notation nDi := (nDis (cEl cf)).
Local Notation nMd := (nModes (cEl cf) (cSp cf)).
Local Notation ck_ := (nModesCk (cEl cf) (cSp cf)).
Local Notation nE := (nQtsE (cEl cf)).
Local Notation nM := (nQtsM (cEl cf)).
Local Notation nCr := (cCrs cf).
Local Notation nRm := (cRms cf).
Local Notation sum := (sum A).
Local Notation rep := (rep A cf).
Local Notation ent := (ent A).

Local Notation state := (@state T).
Local Notation grad := (grad A cf).
Local Notation opE := (opE A cf).
Local Notation opA := (opA A cf).
Local Notation pow := (pow A cf).
Local Notation scal := (scal A).
Local Notation lowers := (lowers A cf).

Lemma scal_S dT de : 1 <= de -> scal dT de = mul (scal dT (de - 1)) (div dT (ofN (de + 1))).
Proof. destruct de as [|d]; [lia|]. intros _. cbn [scal]. replace (S d - 1) with d by lia. reflexivity. Qed.

Lemma nModes_le el o o' : o <= o' -> nModes el o <= nModes el o'.
Proof.
  intros H. destruct el; cbn [nModes].
  - apply Nat.mul_le_mono; auto.
  - apply Nat.div_le_mono; [lia|]. apply Nat.add_le_mono; [apply Nat.mul_le_mono; auto|auto].
  - apply Nat.mul_le_mono; [apply Nat.mul_le_mono|]; auto.
  - apply Nat.div_le_mono; [lia|]. apply Nat.mul_le_mono; [apply Nat.mul_le_mono|]; lia.
Qed.
Lemma ck_le el o de : nModesCk el o de <= nModes el o.
Proof. destruct el; cbn [nModesCk]; auto; apply nModes_le; lia. Qed.
Lemma ck_0 el o : nModesCk el o 0 = nModes el o.
Proof. destruct el; cbn [nModesCk]; auto; now rewrite Nat.sub_0_r. Qed.

Lemma nM_nE : nM + nDi <= nE.
Proof. unfold nQtsM, nQtsE. destruct (cEl cf); cbn; lia. Qed.

Local Opaque nModes nModesCk nQtsE nQtsM nDis.

(** *** Kernels *)
Definition k0 de := kAC one cf nE (ck_ de) (ck_ (de - 1)) nMd nMd nMd zero.
Definition k1 de := kBC one cf nE (ck_ de) nE nE nMd nMd one.

Lemma vAdd (k : @vanilla T) g ks : vAC k || vBC k = true -> vanillaAdd g k ks =
  (let ks := if length ks <=? g then ks ++ repeat [] (g + 1 - length ks) else ks in x <- rd ks g;; wr ks g (x ++ [k])).
Proof. intros H. unfold vanillaAdd. rewrite H, orb_true_r. reflexivity. Qed.

Lemma genTime_ok : exists ks, genTime zero one cf = Ok ks /\
  (forall de, 1 <= de < cTi cf -> kern ks 0 (de - 1) = Ok (k0 de) /\ kern ks 1 (de - 1) = Ok (k1 de)) /\
  (0 < nRm -> 1 < cTi cf -> kern ks 2 0 = Ok (kBC one cf nM (ck_ 1) nDi nDi nMd nMd one) /\ kern ks 2 1 = Ok (kBC one cf nM nMd nM nM nMd nMd one)).
Proof.
  unfold genTime.
  set (x0 := kBC one cf nM (ck_ 1) nDi nDi nMd nMd one). set (x1 := kBC one cf nM nMd nM nM nMd nMd one).
  assert (X0 : vAC x0 || vBC x0 = true) by reflexivity. assert (X1 : vAC x1 || vBC x1 = true) by reflexivity. clearbody x0 x1.
  change (fun de ks => ks <- vanillaAdd 0 (kAC one cf nE (ck_ de) (ck_ (de - 1)) nMd nMd nMd zero) ks;; vanillaAdd 1 (kBC one cf nE (ck_ de) nE nE nMd nMd one) ks)
    with (fun de ks => ks <- vanillaAdd 0 (k0 de) ks;; vanillaAdd 1 (k1 de) ks).
  assert (Y : forall de, vAC (k0 de) || vBC (k0 de) = true /\ vAC (k1 de) || vBC (k1 de) = true) by (intros; split; reflexivity).
  generalize dependent k1. generalize dependent k0. intros k0 k1 Y.
  destruct (Nat.le_gt_cases (cTi cf) 1) as [HT|HT].
  - rewrite for_empty by auto. cbn [bind]. destruct (0 <? nRm) eqn:R.
    + eexists. split; [rewrite !vAdd by auto; cbn; rewrite vAdd by auto; reflexivity|]. split; [intros; lia|intros; lia].
    + eexists. split; [reflexivity|]. split; [intros; lia|intros; lia].
  - set (I := fun de (ks : list (list (@vanilla T))) => ks = if de =? 1 then [] else [map k0 (seq 1 (de - 1)); map k1 (seq 1 (de - 1))]).
    loop I as ks E H.
    + lia.
    + reflexivity.
    + intros de ks Hde ->. rewrite vAdd by apply Y.
      destruct (Nat.eqb_spec de 1) as [->|D1].
      * cbn. rewrite vAdd by apply Y. eexists. split; [reflexivity|]. reflexivity.
      * cbn. rewrite vAdd by apply Y. eexists. split; [reflexivity|]. unfold I.
        destruct (Nat.eqb_spec (S de) 1); [lia|]. replace (S de - 1) with (S (de - 1)) by lia. rewrite seq_snoc, !map_app. cbn [map]. replace (1 + (de - 1)) with de by lia. reflexivity.
    + unfold I in H. destruct (Nat.eqb_spec (cTi cf) 1); [lia|]. subst ks.
      assert (G : forall de, 1 <= de < cTi cf -> nth_error (map k0 (seq 1 (cTi cf - 1))) (de - 1) = Some (k0 de) /\ nth_error (map k1 (seq 1 (cTi cf - 1))) (de - 1) = Some (k1 de)).
      { intros de Hde. split; erewrite map_nth_error; try reflexivity; rewrite nth_error_seq by lia; f_equal; lia. }
      destruct (0 <? nRm) eqn:R.
      * eexists. split; [rewrite vAdd by auto; cbn; rewrite vAdd by auto; reflexivity|].
        split; [|intros; split; reflexivity]. intros de Hde. unfold kern, rd. cbn. destruct (G de Hde) as (-> & ->). auto.
      * eexists. split; [reflexivity|]. split.
        -- intros de Hde. unfold kern, rd. cbn [nth_error bind]. destruct (G de Hde) as (-> & ->). auto.
        -- intros R1. apply Nat.ltb_ge in R. lia.
Qed.

(** *** Inputs *)
Variables (ks : list (list (@vanilla T))) (stiffT : list (list T)) (rfs : list T) (dT : T) (starE starA srcA : list (list T)).
Hypothesis Gen : genTime zero one cf = Ok ks.
Hypothesis Hst : sized nDi (nMd * nMd) stiffT.
Hypothesis HsE : sized nDi (nE * nE) starE.
Hypothesis HsA : 0 < nRm -> sized nDi (nM * nDi) starA.
Hypothesis Hsrc : sized nRm (nM * nM) srcA.
Hypothesis Hrf : length rfs = nRm.

Definition K (di l y : nat) : T := opp (ent nMd (nth di stiffT []) l y).
Definition sE (di x j : nat) : T := ent nE (nth di starE []) x j.
Definition sA (di x j : nat) : T := ent nDi (nth di starA []) x j.
Definition src (rm x j : nat) : T := ent nM (nth rm srcA []) x j.
Definition rf (rm : nat) : T := nth rm rfs zero.
Local Notation power := (pow add K sE sA src rf).
Hypothesis Low : lowers K.

Variable q0 : nat -> state.
Definition Ed (d z x y : nat) : T := fst (power d (q0 z)) x y.
Definition Ad (d rm z x y : nat) : T := snd (power d (q0 z)) rm x y.

Lemma Ed_S d z x y : 1 <= d -> Ed d z x y = opE K sE src (power (d - 1) (q0 z)) x y.
Proof. destruct d as [|d]; [lia|]. intros _. replace (S d - 1) with d by lia. reflexivity. Qed.

Lemma opp0 : opp zero = zero.
Proof. ring. Qed.

Lemma rd_stiff i di : i < cTi cf - 1 -> di < nDi -> rd2 (storeStiffT opp cf stiffT) i di = Ok (map opp (nth di stiffT [])).
Proof.
  intros Hi Hd. unfold rd2, storeStiffT. rewrite (rd_ok _ _ []) by (rewrite repeat_length; lia). cbn [bind].
  rewrite (nth_indep _ [] (map (map opp) stiffT)) by (rewrite repeat_length; lia). rewrite nth_repeat. rewrite (rd_ok _ _ (map opp [])) by (rewrite map_length; destruct Hst; lia). now rewrite map_nth.
Qed.

Lemma ent_stiff di l y : ent nMd (map opp (nth di stiffT [])) l y = K di l y.
Proof. unfold ent, AderSpec.ent, K. rewrite <- opp0 at 1. now rewrite map_nth. Qed.

(** without attenuation the derivatives have their first CK(d) modes only *)
Lemma Ed_zero d z x y : nRm = 0 -> d < cTi cf -> ck_ d <= y < nMd -> Ed d z x y = zero.
Proof using Low.
  clear HsA Hrf. intros R. revert x y. induction d as [|d IH]; intros x y Hd Hy; [rewrite ck_0 in Hy; lia|].
  unfold Ed. cbn [pow op fst]. unfold opE. rewrite R. cbn [AderSpec.sum].
  assert (E : sum nDi (fun di => sum nE (fun j => mul (sE di x j) (grad K di (fst (power d (q0 z))) j y))) = zero).
  { apply (sum_0 A). intros di Hdi. apply (sum_0 A). intros j Hj.
    replace (grad K di (fst (power d (q0 z))) j y) with zero; [ring|]. symmetry. apply (sum_0 A). intros l Hl.
    destruct (Nat.lt_ge_cases l (ck_ d)) as [C|C].
    - rewrite (Low (S d) di l y) by (replace (S d - 1) with d by lia; auto; lia). ring.
    - fold (Ed d z j l). rewrite IH by lia. ring. }
  rewrite E. destruct (x <? nM); ring.
Qed.

Definition re de := if nRm =? 0 then de else 1.

(** the truncated product is the full derivative *)
Lemma grad_trunc de di z x y : 1 <= de < cTi cf -> di < nDi -> y < nMd ->
  grad K di (fst (power (de - 1) (q0 z))) x y = if y <? ck_ (re de) then sum (ck_ (re de - 1)) (fun l => mul (Ed (de - 1) z x l) (K di l y)) else zero.
Proof.
  intros Hde Hdi Hy. change (grad K di (fst (power (de - 1) (q0 z))) x y) with (sum nMd (fun l => mul (Ed (de - 1) z x l) (K di l y))). unfold re. destruct (Nat.eqb_spec nRm 0) as [R|R].
  - destruct (Nat.ltb_spec y (ck_ de)) as [C|C].
    + apply (sum_le A); [apply ck_le|]. intros l Hl. rewrite Ed_zero by (auto; lia). ring.
    + apply (sum_0 A). intros l Hl. destruct (Nat.lt_ge_cases l (ck_ (de - 1))) as [D|D].
      * rewrite (Low de di l y) by (auto; lia). ring.
      * rewrite Ed_zero by (auto; lia). ring.
  - cbn [Nat.sub]. rewrite ck_0. destruct (Nat.ltb_spec y (ck_ 1)) as [C|C]; [reflexivity|].
    apply (sum_0 A). intros l Hl. rewrite (Low 1 di l y); [ring|lia|auto|rewrite ck_0; auto|lia].
Qed.

Lemma rep_len nq n l f : rep nq n l f -> length l = nq * n * nCr.
Proof. intros (L & _). exact L. Qed.

Local Notation sz := (nMd * nCr).
(** arrays of the derivatives *)
Definition goodE (dE : list (list T)) : Prop := sized (cTi cf) (nE * nMd * nCr) dE.
Definition goodA (dA : list (list (list T))) : Prop := length dA = nRm /\ forall rm, rm < nRm -> sized (cTi cf) (nM * nMd * nCr) (nth rm dA []).


Definition ckInv (de : nat) (s : ckState) : Prop :=
  let '(sca, scr, dE, dA, tE, tA) := s in
  sca = scal dT (de - 1) /\ length scr = nE * nMd * nCr /\ goodE dE /\ goodA dA /\
  (forall d, d < de -> rep nE nMd (nth d dE []) (Ed d)) /\
  (forall rm d, rm < nRm -> d < de -> rep nM nMd (nth d (nth rm dA []) []) (Ad d rm)) /\
  rep nE nMd tE (fun z x y => sum de (fun d => mul (scal dT d) (Ed d z x y))) /\
  sized nRm (nM * nMd * nCr) tA /\ (forall rm, rm < nRm -> rep nM nMd (nth rm tA []) (fun z x y => sum de (fun d => mul (scal dT d) (Ad d rm z x y)))).

Lemma ckStep_ok junk de s : length junk = nM * nMd * nCr -> 1 <= de < cTi cf -> ckInv de s ->
  exists s', ckStep zero add mul div ofN isz cf ks (storeStiffT opp cf stiffT) rfs dT starE starA srcA junk de s = Ok s' /\ ckInv (S de) s'.
Proof.
  destruct s as (((((sca & scr) & dE) & dA) & tE) & tA). intros Lj Hde (Hs & Ls & GE & GA & VE & VA & VtE & StA & VtA).
  destruct genTime_ok as (ks' & Gen' & K01 & K2). rewrite Gen in Gen'. injection Gen' as <-.
  assert (Hre : 1 <= re de < cTi cf) by (unfold re; destruct (nRm =? 0); lia).
  assert (Ck1 := ck_le (cEl cf) (cSp cf) (re de)). assert (Ck0 := ck_le (cEl cf) (cSp cf) (re de - 1)). assert (CkD := ck_le (cEl cf) (cSp cf) de).
  assert (Cn1 := ck_le (cEl cf) (cSp cf) 1). assert (NM := nM_nE).
  unfold ckStep. fold (re de).
  rewrite (rd_sized _ _ _ de GE) by lia. cbn [bind].
  destruct (zeroE_ok A cf nE (nth de dE [])) as (e0 & E0 & R0); [apply GE; lia|]. rewrite E0. cbn [bind]. rewrite (wr_sized _ _ _ de _ GE) by lia. cbn [bind].
  destruct (zeroE_ok A cf nM junk Lj) as (s0 & E1 & R1). rewrite E1. cbn [bind]. clear E0 E1.
  set (GEd := fun di x y z => sum di (fun d' => sum nE (fun j => mul (sE d' x j) (grad K d' (fst (power (de - 1) (q0 z))) j y)))).
  set (GAd := fun di x y z => sum di (fun d' => sum nDi (fun j => mul (sA d' x j) (grad K d' (fst (power (de - 1) (q0 z))) (nM + j) y)))).
  loop (fun di (s : list T * list (list T) * list T) => let '(scr, dE', sa) := s in length scr = nE * nMd * nCr /\
    (exists e, dE' = upd dE de e /\ rep nE nMd e (fun z x y => GEd di x y z)) /\ rep nM nMd sa (fun z x y => if 0 <? nRm then GAd di x y z else zero)) as s1 E1 H1.
  - lia.
  - split; [auto|]. split; [exists e0; split; [auto|exact R0]|]. eapply rep_ext; [exact R1|]. intros. cbv beta. unfold GAd. destruct (0 <? nRm); reflexivity.
  - intros di ((scr1 & dE1) & sa1) Hdi (L1 & (e & -> & Re) & Rs).
    destruct (K01 _ Hre) as (Kk0 & Kk1). rewrite Kk0. cbn [bind].
    rewrite (rd_ok _ _ []) by (rewrite length_upd; destruct GE; lia). cbn [bind]. rewrite nth_upd_ne by lia.
    rewrite rd_stiff by lia. cbn [bind].
    destruct (run_ac A cf nE (ck_ (re de)) (ck_ (re de - 1)) nE nMd nMd nMd nE nMd zero (nth (de - 1) dE []) (map opp (nth di stiffT [])) scr1 (Ed (de - 1)) _
      ltac:(lia) ltac:(lia) ltac:(lia) ltac:(lia) ltac:(lia) ltac:(lia) (VE (de - 1) ltac:(lia)) ltac:(rewrite map_length; apply Hst; lia) (rep_any A cf _ _ _ L1)) as (scr2 & Er & Rscr).
    fold (k0 (re de)) in Er. rewrite Er. cbn [bind]. clear Er. rewrite Kk1. cbn [bind].
    rewrite (rd_sized _ _ _ di HsE) by lia. cbn [bind]. rewrite (rd_ok _ _ []) by (rewrite length_upd; destruct GE; lia). cbn [bind]. rewrite nth_upd_eq by (destruct GE; lia).
    assert (Rg : forall z x y, z < nCr -> x < nE -> y < ck_ (re de) -> y < nMd -> nth (pos nCr nMd x y z) scr2 zero = grad K di (fst (power (de - 1) (q0 z))) x y).
    { intros z x y Hz Hx Hy Hy'. rewrite (proj2 Rscr) by auto. cbv beta. rewrite grad_trunc by (auto; lia).
      rewrite (proj2 (Nat.ltb_lt _ _) Hx), (proj2 (Nat.ltb_lt _ _) Hy). cbn [andb]. unfold sc. rewrite (aIz A).
      rewrite (sum_ext A _ _ (fun l => mul (Ed (de - 1) z x l) (K di l y))); [ring|]. intros l Hl. now rewrite ent_stiff. }
    destruct (run_bc A cf nE (ck_ (re de)) nE nE nE nMd nMd nE nE one (nth di starE []) scr2 e _ _
      ltac:(lia) ltac:(lia) ltac:(lia) ltac:(lia) ltac:(lia) ltac:(lia) ltac:(apply HsE; lia) (rep_any A cf _ _ _ (rep_len _ _ _ _ Rscr)) Re) as (e2 & Er & Re2).
    fold (k1 (re de)) in Er. rewrite Er. cbn [bind]. clear Er. rewrite wr_ok by (rewrite length_upd; destruct GE; lia). cbn [bind].
    assert (UU : upd (upd dE de e) de e2 = upd dE de e2).
    { apply nth_error_ext'. intros i. rewrite !nth_error_upd, length_upd. destruct (Nat.eqb_spec de i) as [<-|]; cbn [andb]; [|reflexivity]. destruct (de <? length dE); auto. }
    rewrite UU.
    assert (RE : rep nE nMd e2 (fun z x y => GEd (S di) x y z)).
    { eapply rep_ext; [exact Re2|]. intros z x y Hz Hx Hy. cbv beta. rewrite (proj2 (Nat.ltb_lt _ _) Hx). cbn [andb]. unfold sc. rewrite (aIo A).
      unfold GEd. cbn [AderSpec.sum]. destruct (Nat.ltb_spec y (ck_ (re de))) as [C|C].
      - rewrite (sum_ext A nE _ (fun j => mul (sE di x j) (grad K di (fst (power (de - 1) (q0 z))) j y))); [ring|].
        intros j Hj. f_equal. apply Rg; auto.
      - replace (sum nE (fun j => mul (sE di x j) (grad K di (fst (power (de - 1) (q0 z))) j y))) with zero; [ring|]. symmetry. apply (sum_0 A).
        intros j Hj. rewrite grad_trunc by (auto; lia). destruct (Nat.ltb_spec y (ck_ (re de))); [lia|]. ring. }
    destruct (0 <? nRm) eqn:R.
    + apply Nat.ltb_lt in R. destruct (K2 R ltac:(lia)) as (-> & _). cbn [bind]. rewrite (rd_sized _ _ _ di (HsA R)) by lia. cbn [bind].
      destruct (run_bc A cf nM (ck_ 1) nDi nM nDi nMd nMd nM (nE - nM) one (nth di starA []) (skipn (nM * nMd * nCr) scr2) sa1 _ _
        ltac:(lia) ltac:(lia) ltac:(lia) ltac:(lia) ltac:(lia) ltac:(lia) ltac:(apply (HsA R); lia) (rep_skipn A cf nE nM nMd _ _ ltac:(lia) (rep_any A cf _ _ _ (rep_len _ _ _ _ Rscr))) Rs) as (sa2 & Er & Rs2).
      rewrite Er. cbn [bind]. clear Er. eexists. split; [reflexivity|]. split; [apply (rep_len _ _ _ _ Rscr)|]. split; [exists e2; auto|].
      eapply rep_ext; [exact Rs2|]. intros z x y Hz Hx Hy. cbv beta. rewrite (proj2 (Nat.ltb_lt _ _) Hx). cbn [andb]. unfold sc. rewrite (aIo A).
      assert (R1' : re de = 1) by (unfold re; destruct (Nat.eqb_spec nRm 0); lia).
      unfold GAd. cbn [AderSpec.sum]. destruct (Nat.ltb_spec y (ck_ 1)) as [C|C].
      * rewrite (sum_ext A nDi (fun l => mul (AderSpec.ent A nDi (nth di starA []) x l) _) (fun j => mul (sA di x j) (grad K di (fst (power (de - 1) (q0 z))) (nM + j) y))); [ring|].
        intros j Hj. cbv beta. f_equal. apply Rg; auto; [lia|]. now rewrite R1'.
      * replace (sum nDi (fun j => mul (sA di x j) (grad K di (fst (power (de - 1) (q0 z))) (nM + j) y))) with zero; [ring|]. symmetry. apply (sum_0 A).
        intros j Hj. rewrite grad_trunc by (auto; lia). rewrite R1'. destruct (Nat.ltb_spec y (ck_ 1)); [lia|]. ring.
    + eexists. split; [reflexivity|]. split; [apply (rep_len _ _ _ _ Rscr)|]. split; [exists e2; auto|exact Rs].
  - destruct s1 as ((scr1 & dE1) & sa1). destruct H1 as (L1 & (e1 & -> & Re1) & Rs1). cbn [bind].
    set (sca' := mul sca (div dT (ofN (de + 1)))).
    assert (Sc : sca' = scal dT de) by (unfold sca'; rewrite Hs; symmetry; apply scal_S; lia).
    assert (GAn : forall z x y rm, z < nCr -> x < nM -> y < nMd -> rm < nRm -> Ad de rm z x y = mul (rf rm) (add (GAd nDi x y z) (Ad (de - 1) rm z x y))).
    { intros z x y rm Hz Hx Hy Hrm. unfold Ad. replace de with (S (de - 1)) at 1 by lia. reflexivity. }
    loop (fun n (s : list (list T) * list (list (list T)) * list (list T)) => let '(dE', dA', tA') := s in
      (exists e, dE' = upd dE de e /\ rep nE nMd e (fun z x y => add (GEd nDi x y z) (if x <? nM then sum n (fun rm => sum nM (fun j => mul (src rm x j) (Ad (de - 1) rm z j y))) else zero))) /\
      goodA dA' /\ (forall rm d, rm < nRm -> d < de -> rep nM nMd (nth d (nth rm dA' []) []) (Ad d rm)) /\ (forall rm, rm < n -> rep nM nMd (nth de (nth rm dA' []) []) (Ad de rm)) /\
      sized nRm (nM * nMd * nCr) tA' /\ (forall rm, rm < nRm -> rep nM nMd (nth rm tA' []) (fun z x y => sum (if rm <? n then S de else de) (fun d => mul (scal dT d) (Ad d rm z x y))))) as s2 E2 H2.
    + lia.
    + split.
      * exists e1. split; [reflexivity|]. eapply rep_ext; [exact Re1|]. intros z x y Hz Hx Hy. cbv beta. cbn [AderSpec.sum]. destruct (x <? nM); ring.
      * split; [auto|]. split; [auto|]. split; [intros; lia|]. split; [auto|]. exact VtA.
    + intros rm ((dE2 & dA2) & tA2) Hrm ((e & -> & Re) & GA2 & VA2 & VAn & StA2 & VtA2).
      rewrite (rd_ok _ _ []) by (destruct GA2; lia). cbn [bind]. rewrite (rd_sized _ _ _ (de - 1) (proj2 GA2 rm ltac:(lia))) by lia. cbn [bind].
      destruct (K2 ltac:(lia) ltac:(lia)) as (_ & ->). cbn [bind]. rewrite (rd_sized _ _ _ rm Hsrc) by lia. cbn [bind].
      rewrite (rd_ok _ _ []) by (rewrite length_upd; destruct GE; lia). cbn [bind]. rewrite nth_upd_eq by (destruct GE; lia).
      destruct (run_bc A cf nM nMd nM nE nM nMd nMd nM nM one (nth rm srcA []) (nth (de - 1) (nth rm dA2 []) []) e (Ad (de - 1) rm) _
        ltac:(lia) ltac:(lia) ltac:(lia) ltac:(lia) ltac:(lia) ltac:(lia) ltac:(apply Hsrc; lia) (VA2 rm (de - 1) ltac:(lia) ltac:(lia)) Re) as (e3 & Er & Re3).
      rewrite Er. cbn [bind]. clear Er. rewrite wr_ok by (rewrite length_upd; destruct GE; lia). cbn [bind].
      assert (UU : upd (upd dE de e) de e3 = upd dE de e3).
      { apply nth_error_ext'. intros i. rewrite !nth_error_upd, length_upd. destruct (Nat.eqb_spec de i) as [<-|]; cbn [andb]; [|reflexivity]. destruct (de <? length dE); auto. }
      rewrite UU. rewrite (rd_ok _ _ zero) by lia. cbn [bind]. rewrite (rd_sized _ _ _ de (proj2 GA2 rm ltac:(lia))) by lia. cbn [bind].
      destruct (loop3_ok A cf nM nM nMd (fun i c => x <- rd sa1 i;; y <- rd (nth (de - 1) (nth rm dA2 []) []) i;; wr c i (mul (nth rm rfs zero) (add x y)))
        (fun p _ => mul (rf rm) (add (nth p sa1 zero) (nth p (nth (de - 1) (nth rm dA2 []) []) zero))) (nth de (nth rm dA2 []) []) _ ltac:(lia) ltac:(lia)
        (rep_any A cf _ _ _ (proj2 (proj2 GA2 rm ltac:(lia)) de ltac:(lia)))) as (c & Ec & Rc).
      { intros p c Hp Lc. rewrite (rd_ok _ _ zero) by (rewrite (rep_len _ _ _ _ Rs1); lia). cbn [bind].
        rewrite (rd_ok _ _ zero) by (rewrite (proj2 (proj2 GA2 rm ltac:(lia)) (de - 1) ltac:(lia)); lia). cbn [bind]. rewrite wr_ok by lia. reflexivity. }
      rewrite Ec. cbn [bind]. clear Ec.
      assert (RC : rep nM nMd c (Ad de rm)).
      { eapply rep_ext; [exact Rc|]. intros z x y Hz Hx Hy. cbv beta. rewrite (proj2 (Nat.ltb_lt _ _) Hx), (proj2 (Nat.ltb_lt _ _) Hy). cbn [andb]. rewrite GAn by (auto; lia).
        do 2 f_equal; [|apply VA2; auto; lia]. rewrite (proj2 Rs1) by auto. cbv beta. assert (R : 0 < nRm) by lia. now rewrite (proj2 (Nat.ltb_lt _ _) R). }
      rewrite (rd_sized _ _ _ rm StA2) by lia. cbn [bind].
      destruct (axpyE_ok A cf nM nMd sca' c (nth rm tA2 []) _ _ ltac:(lia) (VtA2 rm ltac:(lia)) RC) as (t & Et & Rt). rewrite Et. cbn [bind]. clear Et.
      rewrite (wr_sized _ _ _ de _ (proj2 GA2 rm ltac:(lia))) by lia. cbn [bind]. rewrite wr_ok by (destruct GA2; lia). cbn [bind]. rewrite (wr_sized _ _ _ rm _ StA2) by lia. cbn [bind].
      eexists. split; [reflexivity|]. split.
      { exists e3. split; [reflexivity|]. eapply rep_ext; [exact Re3|]. intros z x y Hz Hx Hy. cbv beta. rewrite (proj2 (Nat.ltb_lt _ _) Hy), andb_true_r.
        destruct (x <? nM); [|reflexivity]. cbn [AderSpec.sum]. unfold sc. rewrite (aIo A). fold (src rm x). unfold src, ent. ring. }
      split.
      { split; [rewrite length_upd; apply GA2|]. intros r Hr. destruct (Nat.eq_dec rm r) as [<-|N].
        - rewrite nth_upd_eq by (destruct GA2; lia). apply sized_upd; [apply GA2; lia|apply (rep_len _ _ _ _ RC)].
        - rewrite nth_upd_ne by auto. apply GA2. auto. }
      split.
      { intros r d Hr Hd. destruct (Nat.eq_dec rm r) as [<-|N].
        - rewrite nth_upd_eq by (destruct GA2; lia). rewrite nth_upd_ne by lia. apply VA2; auto.
        - rewrite nth_upd_ne by auto. apply VA2; auto. }
      split.
      { intros r Hr. destruct (Nat.eq_dec rm r) as [<-|N].
        - rewrite nth_upd_eq by (destruct GA2; lia). rewrite nth_upd_eq by (destruct (proj2 GA2 rm ltac:(lia)); lia). exact RC.
        - rewrite nth_upd_ne by auto. apply VAn. lia. }
      split; [apply sized_upd; [auto|apply (rep_len _ _ _ _ Rt)]|].
      intros r Hr. destruct (Nat.eq_dec rm r) as [<-|N].
      * rewrite nth_upd_eq by (destruct StA2; lia). eapply rep_ext; [exact Rt|]. intros z x y Hz Hx Hy. cbv beta. rewrite (proj2 (Nat.ltb_lt _ _) Hy).
        rewrite (proj2 (Nat.ltb_ge rm rm)) by lia. rewrite (proj2 (Nat.ltb_lt rm (S rm))) by lia. cbn [AderSpec.sum]. now rewrite Sc.
      * rewrite nth_upd_ne by auto. eapply rep_ext; [apply (VtA2 r Hr)|]. intros z x y Hz Hx Hy. cbv beta.
        replace (r <? S rm) with (r <? rm); [reflexivity|]. destruct (Nat.ltb_spec r rm), (Nat.ltb_spec r (S rm)); auto; lia.
    + destruct s2 as ((dE2 & dA2) & tA2). destruct H2 as ((e & -> & Re) & GA2 & VA2 & VAn & StA2 & VtA2).
      rewrite (rd_ok _ _ []) by (rewrite length_upd; destruct GE; lia). cbn [bind]. rewrite nth_upd_eq by (destruct GE; lia).
      assert (RE : rep nE nMd e (Ed de)).
      { eapply rep_ext; [exact Re|]. intros z x y Hz Hx Hy. rewrite Ed_S by lia. reflexivity. }
      destruct (axpyE_ok A cf nE (if nRm =? 0 then ck_ de else nMd) sca' e tE _ _ ltac:(destruct (nRm =? 0); lia) VtE RE) as (t & Et & Rt). rewrite Et. cbn [bind]. clear Et.
      eexists. split; [reflexivity|]. split; [rewrite Sc; f_equal; lia|]. split; [auto|]. split; [apply sized_upd; [auto|apply (rep_len _ _ _ _ RE)]|].
      split; [auto|]. split; [|split; [|split; [|split]]].
      * intros d Hd. destruct (Nat.eq_dec d de) as [->|N].
        -- rewrite nth_upd_eq by (destruct GE; lia). exact RE.
        -- rewrite nth_upd_ne by auto. apply VE. lia.
      * intros rm d Hrm Hd. destruct (Nat.eq_dec d de) as [->|N]; [apply VAn; auto|apply VA2; auto; lia].
      * eapply rep_ext; [exact Rt|]. intros z x y Hz Hx Hy. cbv beta. cbn [AderSpec.sum]. rewrite Sc.
        destruct (Nat.eqb_spec nRm 0) as [R|R].
        -- destruct (Nat.ltb_spec y (ck_ de)); [reflexivity|]. rewrite Ed_zero by (auto; lia). ring.
        -- rewrite (proj2 (Nat.ltb_lt _ _) Hy). reflexivity.
      * auto.
      * intros rm Hrm. eapply rep_ext; [apply (VtA2 rm Hrm)|]. intros z x y Hz Hx Hy. cbv beta. rewrite (proj2 (Nat.ltb_lt _ _) Hrm). reflexivity.
Qed.

Lemma ckVanilla_ok dofsE dofsA junk scr dE dA tE tA : 1 <= cTi cf -> length junk = nM * nMd * nCr -> length scr = nE * nMd * nCr -> goodE dE -> goodA dA ->
  length tE = nE * nMd * nCr -> sized nRm (nM * nMd * nCr) tA -> length dofsA = nRm ->
  rep nE nMd dofsE (fun z => fst (q0 z)) -> (forall rm, rm < nRm -> rep nM nMd (nth rm dofsA []) (fun z => snd (q0 z) rm)) ->
  exists s, ckVanilla zero add mul div ofN isz cf ks (storeStiffT opp cf stiffT) rfs dT starE starA srcA dofsE dofsA junk scr dE dA tE tA = Ok s /\ ckInv (cTi cf) s.
Proof.
  intros HT Lj Ls GE GA Lt StA LdA Rd RdA. unfold ckVanilla.
  rewrite (rd_sized _ _ _ 0 GE) by lia. cbn [bind]. destruct (copyE_ok A cf nE dofsE (nth 0 dE []) _ ltac:(apply GE; lia) Rd) as (e & Ee & Re). rewrite Ee. cbn [bind]. clear Ee.
  rewrite (wr_sized _ _ _ 0 _ GE) by lia. cbn [bind]. destruct (scaleE_ok A cf nE dT dofsE tE _ Lt Rd) as (t & Et & Rt). rewrite Et. cbn [bind]. clear Et.
  loop (fun n (s : list (list (list T)) * list (list T)) => let '(dA', tA') := s in goodA dA' /\ sized nRm (nM * nMd * nCr) tA' /\
    (forall rm, rm < n -> rep nM nMd (nth 0 (nth rm dA' []) []) (Ad 0 rm)) /\ (forall rm, rm < n -> rep nM nMd (nth rm tA' []) (fun z x y => mul dT (Ad 0 rm z x y)))) as s1 E1 H1.
  - lia.
  - split; [auto|]. split; [auto|]. split; intros; lia.
  - intros rm (dA1 & tA1) Hrm (GA1 & St1 & V1 & V2). rewrite (rd_ok _ _ []) by lia. cbn [bind]. rewrite (rd_ok _ _ []) by (destruct GA1; lia). cbn [bind].
    rewrite (rd_sized _ _ _ 0 (proj2 GA1 rm ltac:(lia))) by lia. cbn [bind].
    destruct (copyE_ok A cf nM (nth rm dofsA []) (nth 0 (nth rm dA1 []) []) _ ltac:(apply GA1; lia) (RdA rm ltac:(lia))) as (c & Ec & Rc). rewrite Ec. cbn [bind]. clear Ec.
    rewrite (wr_sized _ _ _ 0 _ (proj2 GA1 rm ltac:(lia))) by lia. cbn [bind]. rewrite wr_ok by (destruct GA1; lia). cbn [bind]. rewrite (rd_sized _ _ _ rm St1) by lia. cbn [bind].
    destruct (scaleE_ok A cf nM dT (nth rm dofsA []) (nth rm tA1 []) _ ltac:(apply St1; lia) (RdA rm ltac:(lia))) as (w & Ew & Rw). rewrite Ew. cbn [bind]. clear Ew.
    rewrite (wr_sized _ _ _ rm _ St1) by lia. cbn [bind]. eexists. split; [reflexivity|]. split; [|split; [|split]].
    + split; [rewrite length_upd; apply GA1|]. intros r Hr. destruct (Nat.eq_dec rm r) as [<-|N].
      * rewrite nth_upd_eq by (destruct GA1; lia). apply sized_upd; [apply GA1; lia|apply (rep_len _ _ _ _ Rc)].
      * rewrite nth_upd_ne by auto. apply GA1. auto.
    + apply sized_upd; [auto|apply (rep_len _ _ _ _ Rw)].
    + intros r Hr. destruct (Nat.eq_dec rm r) as [<-|N].
      * rewrite nth_upd_eq by (destruct GA1; lia). rewrite nth_upd_eq by (destruct (proj2 GA1 rm ltac:(lia)); lia). exact Rc.
      * rewrite nth_upd_ne by auto. apply V1. lia.
    + intros r Hr. destruct (Nat.eq_dec rm r) as [<-|N].
      * rewrite nth_upd_eq by (destruct St1; lia). exact Rw.
      * rewrite nth_upd_ne by auto. apply V2. lia.
  - destruct s1 as (dA1 & tA1). destruct H1 as (GA1 & St1 & V1 & V2). cbn [bind].
    apply (for_ok ckInv); [lia| |].
    + split; [reflexivity|]. split; [auto|]. split; [apply sized_upd; [auto|apply (rep_len _ _ _ _ Re)]|]. split; [auto|]. split; [|split; [|split; [|split]]].
      * intros d Hd. replace d with 0 by lia. rewrite nth_upd_eq by (destruct GE; lia). exact Re.
      * intros rm d Hrm Hd. replace d with 0 by lia. apply V1. auto.
      * eapply rep_ext; [exact Rt|]. intros z x y Hz Hx Hy. cbn. unfold Ed. cbn. ring.
      * auto.
      * intros rm Hrm. eapply rep_ext; [apply (V2 rm Hrm)|]. intros z x y Hz Hx Hy. cbn. ring.
    + intros de s Hde Hs. apply ckStep_ok; auto.
Qed.

End Ck.
