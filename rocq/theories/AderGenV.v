(** The common loops of the kernels with LIBXSMM: they give the results of the operator of the element, if the calls of the matrix kernels do. *)
From Coq Require Import Ring.
From Verif Require Import Util MeshConn MatMul Props_Mat Ader AderSpec AderV AderCk AderInt AderGen.

Lemma rep_inj {T} (A : alg T) (cf : conf) nq n l l' f : rep A cf nq n l f -> rep A cf nq n l' f -> l = l'.
Proof.
  intros (L & V) (L' & V'). apply (nth_ext l l' (aZero A) (aZero A)); [lia|]. intros i Hi. rewrite L in Hi.
  assert (N : cCrs cf <> 0 /\ n <> 0) by (split; intros E; rewrite E in Hi; lia). destruct N as (N1 & N2).
  assert (P : i = pos (cCrs cf) n (i / cCrs cf / n) ((i / cCrs cf) mod n) (i mod cCrs cf)).
  { unfold pos. assert (D := Nat.div_mod i (cCrs cf) N1). assert (D' := Nat.div_mod (i / cCrs cf) n N2). nia. }
  assert (B : i / cCrs cf / n < nq).
  { apply Nat.div_lt_upper_bound; [auto|]. apply Nat.div_lt_upper_bound; [auto|]. lia. }
  rewrite P. rewrite V, V'; auto; try apply Nat.mod_upper_bound; auto.
Qed.

Section GenV.
Context {T : Type}.
Variables (A : alg T) (cf : conf).
Local Notation zero := (aZero A).
Local Notation one := (aOne A).
Local Notation add := (aAdd A).
Local Notation sub := (aSub A).
Local Notation mul := (aMul A).
Local Notation div := (aDiv A).
Local Notation opp := (aOpp A).
Local Notation ofN := (aOfN A).
Local Notation isz := (aIsz A).
Add Ring TRg : (aRT A).
Local Notation nDi := (nDis (cEl cf)).
Local Notation nMd := (nModes (cEl cf) (cSp cf)).
Local Notation nMdFa := (nModesFa (cEl cf) (cSp cf)).
Local Notation nFa := (nElFas (cEl cf)).
Local Notation ck_ := (nModesCk (cEl cf) (cSp cf)).
Local Notation nE := (nQtsE (cEl cf)).
Local Notation nM := (nQtsM (cEl cf)).
Local Notation nCr := (cCrs cf).
Local Notation nRm := (cRms cf).
Local Notation sum := (sum A).
Local Notation rep := (rep A cf).
Local Notation ent := (ent A).
Local Notation state := (@state T).
Local Opaque nModes nModesCk nQtsE nQtsM nDis nModesFa nElFas.

Section Time.
Variables (stiffT : list (list T)) (rfs : list T) (dT : T) (starE starA srcA : list (list T)) (q0 : nat -> state).
Hypothesis Hrf : length rfs = nRm.
Local Notation K := (K A cf stiffT).
Local Notation sE := (sE A cf starE).
Local Notation sA := (sA A cf starA).
Local Notation src := (src A cf srcA).
Local Notation rf := (rf A rfs).
Local Notation grad := (grad A cf).
Local Notation opE := (opE A cf).
Local Notation scal := (scal A).
Local Notation power := (pow A cf add K sE sA src rf).
Local Notation Ed := (Ed A cf stiffT rfs starE starA srcA q0).
Local Notation Ad := (Ad A cf stiffT rfs starE starA srcA q0).
Local Notation ckInv := (ckInv A cf stiffT rfs dT starE starA srcA q0).
Local Notation goodE := (@goodE T cf).
Local Notation goodA := (@goodA T cf).
Local Notation re := (re cf).
Hypothesis Low : lowers A cf K.

Variables (mmStiff mmStarE : nat -> nat -> list T -> list T -> res (list T)) (mmStarA mmSrc : nat -> list T -> list T -> res (list T)) (zA : bool).
(** one direction: derivative, elastic and anelastic star matrices *)
Hypothesis Hdir : forall de di p scr, 1 <= de < cTi cf -> di < nDi -> rep nE nMd p (Ed (de - 1)) -> length scr = nE * nMd * nCr ->
  exists scr', mmStiff (re de) di p scr = Ok scr' /\ length scr' = nE * nMd * nCr /\
    (forall e fe, rep nE nMd e fe -> exists e', mmStarE (re de) di scr' e = Ok e' /\
      rep nE nMd e' (fun z x y => add (fe z x y) (sum nE (fun j => mul (sE di x j) (grad K di (fst (power (de - 1) (q0 z))) j y))))) /\
    (0 < nRm -> forall sa fs, rep nM nMd sa fs -> exists sa', mmStarA di scr' sa = Ok sa' /\
      rep nM nMd sa' (fun z x y => add (fs z x y) (sum nDi (fun j => mul (sA di x j) (grad K di (fst (power (de - 1) (q0 z))) (nM + j) y))))).
Hypothesis Hsrc : 1 < cTi cf -> forall rm p e f fe, rm < nRm -> rep nM nMd p f -> rep nE nMd e fe ->
  exists e', mmSrc rm p e = Ok e' /\ rep nE nMd e' (fun z x y => add (fe z x y) (if x <? nM then sum nM (fun j => mul (src rm x j) (f z j y)) else zero)).

Local Notation rep_len := (rep_len A cf).
Local Notation Ed_zero := (Ed_zero A cf stiffT rfs starE starA srcA Low q0).

Lemma ckStepG_ok junk de s : length junk = nM * nMd * nCr -> 1 <= de < cTi cf -> ckInv de s ->
  exists s', ckStepG zero add mul div ofN cf mmStiff mmStarE mmStarA mmSrc zA rfs dT junk de s = Ok s' /\ ckInv (S de) s'.
Proof.
  destruct s as (((((sca & scr) & dE) & dA) & tE) & tA). intros Lj Hde (Hs & Ls & GE & GA & VE & VA & VtE & StA & VtA).
  assert (CkD := ck_le (cEl cf) (cSp cf) de). assert (NM := nM_nE cf).
  unfold ckStepG. fold (re de).
  rewrite (rd_sized _ _ _ de GE) by lia. cbn [bind].
  destruct (zeroE_ok A cf nE (nth de dE [])) as (e0 & E0 & R0); [apply GE; lia|]. rewrite E0. cbn [bind]. rewrite (wr_sized _ _ _ de _ GE) by lia. cbn [bind]. clear E0.
  assert (Z : exists s0, (if zA || (0 <? nRm) then zeroE zero cf nM junk else Ok junk) = Ok s0 /\ (0 < nRm -> rep nM nMd s0 (fun _ _ _ => zero)) /\ length s0 = nM * nMd * nCr).
  { destruct (zeroE_ok A cf nM junk Lj) as (s0 & E1 & R1). destruct (zA || (0 <? nRm)) eqn:Z.
    - exists s0. split; [exact E1|]. split; [auto|apply R1].
    - exists junk. split; [reflexivity|]. split; [|auto]. intros R. apply Nat.ltb_lt in R. rewrite R, orb_true_r in Z. discriminate. }
  destruct Z as (s0 & E1 & R1 & L0). rewrite E1. cbn [bind]. clear E1.
  set (GEd := fun di x y z => sum di (fun d' => sum nE (fun j => mul (sE d' x j) (grad K d' (fst (power (de - 1) (q0 z))) j y)))).
  set (GAd := fun di x y z => sum di (fun d' => sum nDi (fun j => mul (sA d' x j) (grad K d' (fst (power (de - 1) (q0 z))) (nM + j) y)))).
  loop (fun di (s : list T * list (list T) * list T) => let '(scr, dE', sa) := s in length scr = nE * nMd * nCr /\
    (exists e, dE' = upd dE de e /\ rep nE nMd e (fun z x y => GEd di x y z)) /\ length sa = nM * nMd * nCr /\ (0 < nRm -> rep nM nMd sa (fun z x y => GAd di x y z))) as s1 E1 H1.
  - lia.
  - split; [auto|]. split; [exists e0; split; [auto|exact R0]|]. split; [auto|]. intros R. exact (R1 R).
  - intros di ((scr1 & dE1) & sa1) Hdi (L1 & (e & -> & Re) & Lsa & Rs).
    rewrite (rd_ok _ _ []) by (rewrite length_upd; destruct GE; lia). cbn [bind]. rewrite nth_upd_ne by lia.
    destruct (Hdir de di (nth (de - 1) dE []) scr1 Hde ltac:(lia) (VE (de - 1) ltac:(lia)) L1) as (scr2 & Er & L2 & HE & HA). rewrite Er. cbn [bind]. clear Er.
    rewrite (rd_ok _ _ []) by (rewrite length_upd; destruct GE; lia). cbn [bind]. rewrite nth_upd_eq by (destruct GE; lia).
    destruct (HE e _ Re) as (e2 & Er & Re2). rewrite Er. cbn [bind]. clear Er. rewrite wr_ok by (rewrite length_upd; destruct GE; lia). cbn [bind].
    assert (UU : upd (upd dE de e) de e2 = upd dE de e2).
    { apply nth_error_ext'. intros i. rewrite !nth_error_upd, length_upd. destruct (Nat.eqb_spec de i) as [<-|]; cbn [andb]; [|reflexivity]. destruct (de <? length dE); auto. }
    rewrite UU. destruct (0 <? nRm) eqn:R.
    + apply Nat.ltb_lt in R. destruct (HA R sa1 _ (Rs R)) as (sa2 & Er & Rs2). rewrite Er. cbn [bind]. clear Er. eexists. split; [reflexivity|]. split; [auto|].
      split; [exists e2; split; [reflexivity|exact Re2]|]. split; [apply Rs2|]. intros _. exact Rs2.
    + eexists. split; [reflexivity|]. split; [auto|]. split; [exists e2; split; [reflexivity|exact Re2]|]. split; [auto|]. intros R'. apply Nat.ltb_ge in R. lia.
  - destruct s1 as ((scr1 & dE1) & sa1). destruct H1 as (L1 & (e1 & -> & Re1) & Lsa1 & Rs1). cbn [bind].
    set (sca' := mul sca (div dT (ofN (de + 1)))).
    assert (Sc : sca' = scal dT de) by (unfold sca'; rewrite Hs; symmetry; apply (scal_S A); lia).
    assert (GAn : forall z x y rm, z < nCr -> x < nM -> y < nMd -> rm < nRm -> Ad de rm z x y = mul (rf rm) (add (GAd nDi x y z) (Ad (de - 1) rm z x y))).
    { intros z x y rm Hz Hx Hy Hrm. unfold AderCk.Ad. replace de with (S (de - 1)) at 1 by lia. reflexivity. }
    loop (fun n (s : list (list T) * list (list (list T)) * list (list T)) => let '(dE', dA', tA') := s in
      (exists e, dE' = upd dE de e /\ rep nE nMd e (fun z x y => add (GEd nDi x y z) (if x <? nM then sum n (fun rm => sum nM (fun j => mul (src rm x j) (Ad (de - 1) rm z j y))) else zero))) /\
      goodA dA' /\ (forall rm d, rm < nRm -> d < de -> rep nM nMd (nth d (nth rm dA' []) []) (Ad d rm)) /\ (forall rm, rm < n -> rep nM nMd (nth de (nth rm dA' []) []) (Ad de rm)) /\
      sized nRm (nM * nMd * nCr) tA' /\ (forall rm, rm < nRm -> rep nM nMd (nth rm tA' []) (fun z x y => sum (if rm <? n then S de else de) (fun d => mul (scal dT d) (Ad d rm z x y))))) as s2 E2 H2.
    + lia.
    + split.
      * exists e1. split; [reflexivity|]. eapply rep_ext; [exact Re1|]. intros z x y Hz Hx Hy. cbv beta. cbn [AderSpec.sum]. destruct (x <? nM); ring.
      * split; [auto|]. split; [auto|]. split; [intros; lia|]. split; [auto|]. exact VtA.
    + intros rm ((dE2 & dA2) & tA2) Hrm ((e & -> & Re) & GA2 & VA2 & VAn & StA2 & VtA2).
      rewrite (rd_ok _ _ []) by (destruct GA2; lia). cbn [bind]. rewrite (rd_sized _ _ _ (de - 1) (proj2 GA2 rm ltac:(lia))) by lia. cbn [bind].
      rewrite (rd_ok _ _ []) by (rewrite length_upd; destruct GE; lia). cbn [bind]. rewrite nth_upd_eq by (destruct GE; lia).
      destruct (Hsrc ltac:(lia) rm _ e _ _ ltac:(lia) (VA2 rm (de - 1) ltac:(lia) ltac:(lia)) Re) as (e3 & Er & Re3).
      rewrite Er. cbn [bind]. clear Er. rewrite wr_ok by (rewrite length_upd; destruct GE; lia). cbn [bind].
      assert (UU : upd (upd dE de e) de e3 = upd dE de e3).
      { apply nth_error_ext'. intros i. rewrite !nth_error_upd, length_upd. destruct (Nat.eqb_spec de i) as [<-|]; cbn [andb]; [|reflexivity]. destruct (de <? length dE); auto. }
      rewrite UU. rewrite (rd_ok _ _ zero) by lia. cbn [bind]. rewrite (rd_sized _ _ _ de (proj2 GA2 rm ltac:(lia))) by lia. cbn [bind].
      destruct (loop3_ok A cf nM nM nMd (fun i c => x <- rd sa1 i;; y <- rd (nth (de - 1) (nth rm dA2 []) []) i;; wr c i (mul (nth rm rfs zero) (add x y)))
        (fun p _ => mul (rf rm) (add (nth p sa1 zero) (nth p (nth (de - 1) (nth rm dA2 []) []) zero))) (nth de (nth rm dA2 []) []) _ ltac:(lia) ltac:(lia)
        (rep_any A cf _ _ _ (proj2 (proj2 GA2 rm ltac:(lia)) de ltac:(lia)))) as (c & Ec & Rc).
      { intros p c Hp Lc. rewrite (rd_ok _ _ zero) by (rewrite Lsa1; lia). cbn [bind].
        rewrite (rd_ok _ _ zero) by (rewrite (proj2 (proj2 GA2 rm ltac:(lia)) (de - 1) ltac:(lia)); lia). cbn [bind]. rewrite wr_ok by lia. reflexivity. }
      rewrite Ec. cbn [bind]. clear Ec.
      assert (RC : rep nM nMd c (Ad de rm)).
      { eapply rep_ext; [exact Rc|]. intros z x y Hz Hx Hy. cbv beta. rewrite (proj2 (Nat.ltb_lt _ _) Hx), (proj2 (Nat.ltb_lt _ _) Hy). cbn [andb]. rewrite GAn by (auto; lia).
        do 2 f_equal; [|apply VA2; auto; lia]. rewrite (proj2 (Rs1 ltac:(lia))) by auto. reflexivity. }
      rewrite (rd_sized _ _ _ rm StA2) by lia. cbn [bind].
      destruct (axpyE_ok A cf nM nMd sca' c (nth rm tA2 []) _ _ ltac:(lia) (VtA2 rm ltac:(lia)) RC) as (t & Et & Rt). rewrite Et. cbn [bind]. clear Et.
      rewrite (wr_sized _ _ _ de _ (proj2 GA2 rm ltac:(lia))) by lia. cbn [bind]. rewrite wr_ok by (destruct GA2; lia). cbn [bind]. rewrite (wr_sized _ _ _ rm _ StA2) by lia. cbn [bind].
      eexists. split; [reflexivity|]. split.
      { exists e3. split; [reflexivity|]. eapply rep_ext; [exact Re3|]. intros z x y Hz Hx Hy. cbv beta. destruct (x <? nM); [|ring]. cbn [AderSpec.sum]. ring. }
      split.
      { split; [rewrite length_upd; apply GA2|]. intros r Hr. destruct (Nat.eq_dec rm r) as [<-|N].
        - rewrite nth_upd_eq by (destruct GA2; lia). apply sized_upd; [apply GA2; lia|apply (rep_len _ _ _ _ RC)].
        - rewrite nth_upd_ne by auto. apply GA2. auto. }
      split.
      { intros r d Hr Hd. destruct (Nat.eq_dec rm r) as [<-|N].
        - rewrite nth_upd_eq by (destruct GA2; lia). rewrite nth_upd_ne by lia. apply VA2; auto.
        - rewrite nth_upd_ne by auto. apply VA2; auto. }
      split.
      { intros r Hr. destruct (Nat.eq_dec rm r) as [<-|N].
        - rewrite nth_upd_eq by (destruct GA2; lia). rewrite nth_upd_eq by (destruct (proj2 GA2 rm ltac:(lia)); lia). exact RC.
        - rewrite nth_upd_ne by auto. apply VAn. lia. }
      split; [apply sized_upd; [auto|apply (rep_len _ _ _ _ Rt)]|].
      intros r Hr. destruct (Nat.eq_dec rm r) as [<-|N].
      * rewrite nth_upd_eq by (destruct StA2; lia). eapply rep_ext; [exact Rt|]. intros z x y Hz Hx Hy. cbv beta. rewrite (proj2 (Nat.ltb_lt _ _) Hy).
        rewrite (proj2 (Nat.ltb_ge rm rm)) by lia. rewrite (proj2 (Nat.ltb_lt rm (S rm))) by lia. cbn [AderSpec.sum]. now rewrite Sc.
      * rewrite nth_upd_ne by auto. eapply rep_ext; [apply (VtA2 r Hr)|]. intros z x y Hz Hx Hy. cbv beta.
        replace (r <? S rm) with (r <? rm); [reflexivity|]. destruct (Nat.ltb_spec r rm), (Nat.ltb_spec r (S rm)); auto; lia.
    + destruct s2 as ((dE2 & dA2) & tA2). destruct H2 as ((e & -> & Re) & GA2 & VA2 & VAn & StA2 & VtA2).
      rewrite (rd_ok _ _ []) by (rewrite length_upd; destruct GE; lia). cbn [bind]. rewrite nth_upd_eq by (destruct GE; lia).
      assert (RE : rep nE nMd e (Ed de)).
      { eapply rep_ext; [exact Re|]. intros z x y Hz Hx Hy. unfold AderCk.Ed. replace de with (S (de - 1)) by lia. cbn [pow op fst]. replace (S (de - 1) - 1) with (de - 1) by lia. reflexivity. }
      destruct (axpyE_ok A cf nE (if nRm =? 0 then ck_ de else nMd) sca' e tE _ _ ltac:(destruct (nRm =? 0); lia) VtE RE) as (t & Et & Rt). rewrite Et. cbn [bind]. clear Et.
      eexists. split; [reflexivity|]. split; [rewrite Sc; f_equal; lia|]. split; [auto|]. split; [apply sized_upd; [auto|apply (rep_len _ _ _ _ RE)]|].
      split; [auto|]. split; [|split; [|split; [|split]]].
      * intros d Hd. destruct (Nat.eq_dec d de) as [->|N].
        -- rewrite nth_upd_eq by (destruct GE; lia). exact RE.
        -- rewrite nth_upd_ne by auto. apply VE. lia.
      * intros rm d Hrm Hd. destruct (Nat.eq_dec d de) as [->|N]; [apply VAn; auto|apply VA2; auto; lia].
      * eapply rep_ext; [exact Rt|]. intros z x y Hz Hx Hy. cbv beta. cbn [AderSpec.sum]. rewrite Sc.
        destruct (Nat.eqb_spec nRm 0) as [R|R].
        -- destruct (Nat.ltb_spec y (ck_ de)); [reflexivity|]. rewrite Ed_zero by (auto; lia). ring.
        -- rewrite (proj2 (Nat.ltb_lt _ _) Hy). reflexivity.
      * auto.
      * intros rm Hrm. eapply rep_ext; [apply (VtA2 rm Hrm)|]. intros z x y Hz Hx Hy. cbv beta. rewrite (proj2 (Nat.ltb_lt _ _) Hrm). reflexivity.
Qed.

Lemma ckG_ok dofsE dofsA junk scr dE dA tE tA : 1 <= cTi cf -> length junk = nM * nMd * nCr -> length scr = nE * nMd * nCr -> goodE dE -> goodA dA ->
  length tE = nE * nMd * nCr -> sized nRm (nM * nMd * nCr) tA -> length dofsA = nRm ->
  rep nE nMd dofsE (fun z => fst (q0 z)) -> (forall rm, rm < nRm -> rep nM nMd (nth rm dofsA []) (fun z => snd (q0 z) rm)) ->
  exists s, ckG zero add mul div ofN cf mmStiff mmStarE mmStarA mmSrc zA rfs dT dofsE dofsA junk scr dE dA tE tA = Ok s /\ ckInv (cTi cf) s.
Proof.
  intros HT Lj Ls GE GA Lt StA LdA Rd RdA. unfold ckG.
  rewrite (rd_sized _ _ _ 0 GE) by lia. cbn [bind]. destruct (copyE_ok A cf nE dofsE (nth 0 dE []) _ ltac:(apply GE; lia) Rd) as (e & Ee & Re). rewrite Ee. cbn [bind]. clear Ee.
  rewrite (wr_sized _ _ _ 0 _ GE) by lia. cbn [bind]. destruct (scaleE_ok A cf nE dT dofsE tE _ Lt Rd) as (t & Et & Rt). rewrite Et. cbn [bind]. clear Et.
  loop (fun n (s : list (list (list T)) * list (list T)) => let '(dA', tA') := s in goodA dA' /\ sized nRm (nM * nMd * nCr) tA' /\
    (forall rm, rm < n -> rep nM nMd (nth 0 (nth rm dA' []) []) (Ad 0 rm)) /\ (forall rm, rm < n -> rep nM nMd (nth rm tA' []) (fun z x y => mul dT (Ad 0 rm z x y)))) as s1 E1 H1.
  - lia.
  - split; [auto|]. split; [auto|]. split; intros; lia.
  - intros rm (dA1 & tA1) Hrm (GA1 & St1 & V1 & V2). rewrite (rd_ok _ _ []) by lia. cbn [bind]. rewrite (rd_ok _ _ []) by (destruct GA1; lia). cbn [bind].
    rewrite (rd_sized _ _ _ 0 (proj2 GA1 rm ltac:(lia))) by lia. cbn [bind].
    destruct (copyE_ok A cf nM (nth rm dofsA []) (nth 0 (nth rm dA1 []) []) _ ltac:(apply GA1; lia) (RdA rm ltac:(lia))) as (c & Ec & Rc). rewrite Ec. cbn [bind]. clear Ec.
    rewrite (wr_sized _ _ _ 0 _ (proj2 GA1 rm ltac:(lia))) by lia. cbn [bind]. rewrite wr_ok by (destruct GA1; lia). cbn [bind]. rewrite (rd_sized _ _ _ rm St1) by lia. cbn [bind].
    destruct (scaleE_ok A cf nM dT (nth rm dofsA []) (nth rm tA1 []) _ ltac:(apply St1; lia) (RdA rm ltac:(lia))) as (w & Ew & Rw). rewrite Ew. cbn [bind]. clear Ew.
    rewrite (wr_sized _ _ _ rm _ St1) by lia. cbn [bind]. eexists. split; [reflexivity|]. split; [|split; [|split]].
    + split; [rewrite length_upd; apply GA1|]. intros r Hr. destruct (Nat.eq_dec rm r) as [<-|N].
      * rewrite nth_upd_eq by (destruct GA1; lia). apply sized_upd; [apply GA1; lia|apply (rep_len _ _ _ _ Rc)].
      * rewrite nth_upd_ne by auto. apply GA1. auto.
    + apply sized_upd; [auto|apply (rep_len _ _ _ _ Rw)].
    + intros r Hr. destruct (Nat.eq_dec rm r) as [<-|N].
      * rewrite nth_upd_eq by (destruct GA1; lia). rewrite nth_upd_eq by (destruct (proj2 GA1 rm ltac:(lia)); lia). exact Rc.
      * rewrite nth_upd_ne by auto. apply V1. lia.
    + intros r Hr. destruct (Nat.eq_dec rm r) as [<-|N].
      * rewrite nth_upd_eq by (destruct St1; lia). exact Rw.
      * rewrite nth_upd_ne by auto. apply V2. lia.
  - destruct s1 as (dA1 & tA1). destruct H1 as (GA1 & St1 & V1 & V2). cbn [bind].
    apply (for_ok ckInv); [lia| |].
    + split; [reflexivity|]. split; [auto|]. split; [apply sized_upd; [auto|apply (rep_len _ _ _ _ Re)]|]. split; [auto|]. split; [|split; [|split; [|split]]].
      * intros d Hd. replace d with 0 by lia. rewrite nth_upd_eq by (destruct GE; lia). exact Re.
      * intros rm d Hrm Hd. replace d with 0 by lia. apply V1. auto.
      * eapply rep_ext; [exact Rt|]. intros z x y Hz Hx Hy. cbn. unfold AderCk.Ed. cbn. ring.
      * auto.
      * intros rm Hrm. eapply rep_ext; [apply (V2 rm Hrm)|]. intros z x y Hz Hx Hy. cbn. ring.
    + intros de s Hde Hs. apply ckStepG_ok; auto.
Qed.

End Time.

(** *** Volume *)
Lemma volRm_ok rfs srcA (mmSrc : nat -> list T -> list T -> res (list T)) tA sA dofsE dofsA (t : nat -> nat -> nat -> nat -> T) fE fs fA : length rfs = nRm ->
  (forall rm p e f fe, rm < nRm -> rep nM nMd p f -> rep nE nMd e fe ->
    exists e', mmSrc rm p e = Ok e' /\ rep nE nMd e' (fun z x y => add (fe z x y) (if x <? nM then sum nM (fun j => mul (src A cf srcA rm x j) (f z j y)) else zero))) ->
  length tA = nRm -> (forall rm, rm < nRm -> rep nM nMd (nth rm tA []) (t rm)) -> (0 < nRm -> rep nM nMd sA fs) ->
  rep nE nMd dofsE fE -> length dofsA = nRm -> (forall rm, rm < nRm -> rep nM nMd (nth rm dofsA []) (fA rm)) ->
  exists dofsE' dofsA', volRm add sub mul cf mmSrc rfs tA sA dofsE dofsA = Ok (dofsE', dofsA') /\
    rep nE nMd dofsE' (fun z x y => add (fE z x y) (if x <? nM then sum nRm (fun rm => sum nM (fun j => mul (src A cf srcA rm x j) (t rm z j y))) else zero)) /\ length dofsA' = nRm /\
    forall rm, rm < nRm -> rep nM nMd (nth rm dofsA' []) (fun z x y => add (fA rm z x y) (mul (rf A rfs rm) (sub (fs z x y) (t rm z x y)))).
Proof.
  intros Hrf Hsrc LtA RtA Rs1 RdE LdA RdA. unfold volRm.
  loop (fun n (s : list T * list (list T)) => rep nE nMd (fst s) (fun z x y => add (fE z x y) (if x <? nM then sum n (fun rm => sum nM (fun j => mul (src A cf srcA rm x j) (t rm z j y))) else zero)) /\
    length (snd s) = nRm /\ (forall rm, n <= rm < nRm -> rep nM nMd (nth rm (snd s) []) (fA rm)) /\
    (forall rm, rm < n -> rep nM nMd (nth rm (snd s) []) (fun z x y => add (fA rm z x y) (mul (rf A rfs rm) (sub (fs z x y) (t rm z x y)))))) as s2 E2 H2.
  - lia.
  - cbn [fst snd]. split; [eapply rep_ext; [exact RdE|]; intros z x y Hz Hx Hy; cbn [AderSpec.sum]; destruct (x <? nM); ring|]. split; [auto|]. split; [intros; apply RdA; lia|intros; lia].
  - intros rm (dE2 & dA2) Hrm (Re & LA2 & Old & New). cbn [fst snd] in Re, LA2, Old, New.
    rewrite (rd_ok _ _ []) by lia. cbn [bind]. destruct (Hsrc rm _ dE2 _ _ ltac:(lia) (RtA rm ltac:(lia)) Re) as (e3 & Er & Re3).
    rewrite Er. cbn [bind]. clear Er. rewrite (rd_ok _ _ zero) by lia. cbn [bind]. rewrite (rd_ok _ _ []) by lia. cbn [bind].
    assert (Rs := Rs1 ltac:(lia)).
    destruct (loop3_ok A cf nM nM nMd (fun i q => z <- rd q i;; x <- rd sA i;; y <- rd (nth rm tA []) i;; wr q i (add z (mul (nth rm rfs zero) (sub x y))))
      (fun p v => add v (mul (nth rm rfs zero) (sub (nth p sA zero) (nth p (nth rm tA []) zero)))) (nth rm dA2 []) _ ltac:(lia) ltac:(lia) (Old rm ltac:(lia))) as (c & Ec & Rc).
    { intros p c Hp Lc. rewrite (rd_ok _ _ zero) by lia. cbn [bind]. rewrite (rd_ok _ _ zero) by (rewrite (proj1 Rs); lia). cbn [bind].
      rewrite (rd_ok _ _ zero) by (rewrite (proj1 (RtA rm ltac:(lia))); lia). cbn [bind]. rewrite wr_ok by lia. reflexivity. }
    rewrite Ec. cbn [bind]. clear Ec. rewrite wr_ok by lia. cbn [bind]. eexists. split; [reflexivity|]. cbn [fst snd]. split; [|split; [|split]].
    + eapply rep_ext; [exact Re3|]. intros z x y Hz Hx Hy. cbv beta. destruct (x <? nM); [|ring]. cbn [AderSpec.sum]. ring.
    + now rewrite length_upd.
    + intros r Hr. rewrite nth_upd_ne by lia. apply Old. lia.
    + intros r Hr. destruct (Nat.eq_dec rm r) as [<-|N].
      * rewrite nth_upd_eq by lia. eapply rep_ext; [exact Rc|]. intros z x y Hz Hx Hy. cbv beta. rewrite (proj2 (Nat.ltb_lt _ _) Hx), (proj2 (Nat.ltb_lt _ _) Hy). cbn [andb].
        unfold rf. do 3 f_equal; [|apply (RtA rm ltac:(lia)); auto]. apply Rs; auto.
      * rewrite nth_upd_ne by auto. apply New. lia.
  - destruct s2 as (dE2 & dA2). destruct H2 as (Re & LA2 & _ & New). cbn [fst snd] in Re, LA2, New. exists dE2, dA2. auto.
Qed.

(** *** Surface *)
Section Surf.
Variables (rfs : list T) (fIntLN fIntT : list (list T)).
Hypothesis Hrf : length rfs = nRm.
Local Notation faceInt := (faceInt A cf).
Local Notation surf := (surf A cf).
Variables (mmLN : nat -> list T -> list T -> res (list T)) (mmFsE mmFsA : list T -> list T -> list T -> res (list T)) (mmT mmTA : nat -> list T -> list T -> res (list T)).
(** [fsE f F], [fsA f F]: the data [f] of a flux solver (dense or the non-zero entries) is the dense matrix [F] *)
Variables (isE isA : list T -> list T -> Prop).
Hypothesis HLN : forall id t q o, id < nFa + nFluxN (cEl cf) -> rep nE nMd t q -> length o = nE * nMdFa * nCr ->
  exists o', mmLN id t o = Ok o' /\ rep nE nMdFa o' (fun z => faceInt (nth id fIntLN []) (q z)).
Hypothesis HE : forall f F fi g s, isE f F -> rep nE nMdFa fi g -> length s = nE * nMdFa * nCr ->
  exists s', mmFsE f fi s = Ok s' /\ rep nE nMdFa s' (fun z x m => sum nE (fun j => mul (ent nE F x j) (g z j m))).
Hypothesis HT : forall fa s g d fd, fa < nFa -> rep nE nMdFa s g -> rep nE nMd d fd ->
  exists d', mmT fa s d = Ok d' /\ rep nE nMd d' (fun z x y => add (fd z x y) (sum nMdFa (fun m => mul (g z x m) (ent nMd (nth fa fIntT []) m y)))).
Hypothesis HA : 0 < nRm -> forall f F fi g s, isA f F -> rep nE nMdFa fi g -> length s = nE * nMdFa * nCr ->
  exists s' r, mmFsA f fi s = Ok s' /\ rep nE nMdFa s' r /\ forall z x m, z < nCr -> x < nM -> m < nMdFa -> r z x m = sum nE (fun j => mul (ent nE F x j) (g z j m)).
Hypothesis HTA : 0 < nRm -> forall fa s g d fd, fa < nFa -> rep nE nMdFa s g -> rep nM nMd d fd ->
  exists d', mmTA fa s d = Ok d' /\ rep nM nMd d' (fun z x y => add (fd z x y) (sum nMdFa (fun m => mul (g z x m) (ent nMd (nth fa fIntT []) m y)))).

Lemma fluxEG F q fi f Fs fa scr1 d fd : rep nE nMdFa fi (fun z => faceInt F (q z)) -> isE f Fs -> fa < nFa -> length scr1 = nE * nMdFa * nCr -> rep nE nMd d fd ->
  exists s d', mmFsE f fi scr1 = Ok s /\ mmT fa s d = Ok d' /\ length s = nE * nMdFa * nCr /\ rep nE nMd d' (fun z x y => add (fd z x y) (surf Fs F (nth fa fIntT []) (q z) x y)).
Proof.
  intros Rf If Hfa L1 Rd. destruct (HE f Fs fi _ scr1 If Rf L1) as (s & E & R). destruct (HT fa s _ d fd Hfa R Rd) as (d' & E' & R').
  exists s, d'. split; [auto|]. split; [auto|]. split; [apply R|]. exact R'.
Qed.
Lemma fluxAG F q fi f Fs fa scr1 d fd : 0 < nRm -> rep nE nMdFa fi (fun z => faceInt F (q z)) -> isA f Fs -> fa < nFa -> length scr1 = nE * nMdFa * nCr -> rep nM nMd d fd ->
  exists s d', mmFsA f fi scr1 = Ok s /\ mmTA fa s d = Ok d' /\ length s = nE * nMdFa * nCr /\ rep nM nMd d' (fun z x y => add (fd z x y) (surf Fs F (nth fa fIntT []) (q z) x y)).
Proof.
  intros HR Rf If Hfa L1 Rd. destruct (HA HR f Fs fi _ scr1 If Rf L1) as (s & r & E & R & V). destruct (HTA HR fa s _ d fd Hfa R Rd) as (d' & E' & R').
  exists s, d'. split; [auto|]. split; [auto|]. split; [apply R|]. eapply rep_ext; [exact R'|]. intros z x y Hz Hx Hy. cbv beta. f_equal. unfold AderSpec.surf. apply (sum_ext A).
  intros m Hm. now rewrite V by auto.
Qed.

Lemma surfLocalG_ok fsE fsA FE FA tE junk dofsE dofsA scr0 scr1 q fE fA : length fsE = nFa -> (forall fa, fa < nFa -> isE (nth fa fsE []) (nth fa FE [])) ->
  (0 < nRm -> length fsA = nFa /\ forall fa, fa < nFa -> isA (nth fa fsA []) (nth fa FA [])) ->
  length junk = nM * nMd * nCr -> length scr0 = nE * nMdFa * nCr -> length scr1 = nE * nMdFa * nCr ->
  rep nE nMd tE q -> rep nE nMd dofsE fE -> length dofsA = nRm -> (forall rm, rm < nRm -> rep nM nMd (nth rm dofsA []) (fA rm)) ->
  exists dofsE' dofsA' scr0' scr1', surfLocalG zero add mul cf mmLN mmFsE mmFsA mmT mmTA rfs fsE fsA tE junk dofsE dofsA scr0 scr1 = Ok (dofsE', dofsA', scr0', scr1') /\
    length scr0' = nE * nMdFa * nCr /\ length scr1' = nE * nMdFa * nCr /\
    rep nE nMd dofsE' (fun z x y => add (fE z x y) (sum nFa (fun fa => surf (nth fa FE []) (nth fa fIntLN []) (nth fa fIntT []) (q z) x y))) /\ length dofsA' = nRm /\
    (forall rm, rm < nRm -> rep nM nMd (nth rm dofsA' [])
      (fun z x y => add (fA rm z x y) (mul (rf A rfs rm) (sum nFa (fun fa => surf (nth fa FA []) (nth fa fIntLN []) (nth fa fIntT []) (q z) x y))))).
Proof.
  intros Sf IE SfA Lj L0 L1 Rt Rd LdA RdA. unfold surfLocalG.
  assert (Z : exists s0, (if 0 <? nRm then zeroE zero cf nM junk else Ok junk) = Ok s0 /\ (0 < nRm -> rep nM nMd s0 (fun _ _ _ => zero))).
  { destruct (zeroE_ok A cf nM junk Lj) as (s0 & E0 & R0). destruct (0 <? nRm) eqn:R; [exists s0; auto|]. exists junk. split; [auto|]. apply Nat.ltb_ge in R. intros; lia. }
  destruct Z as (s0 & E0 & R0). rewrite E0. cbn [bind]. clear E0.
  loop (fun n (s : list T * list T * list T * list T) => let '(scr0, scr1, d, u) := s in length scr0 = nE * nMdFa * nCr /\ length scr1 = nE * nMdFa * nCr /\
    rep nE nMd d (fun z x y => add (fE z x y) (sum n (fun fa => surf (nth fa FE []) (nth fa fIntLN []) (nth fa fIntT []) (q z) x y))) /\
    (0 < nRm -> rep nM nMd u (fun z x y => sum n (fun fa => surf (nth fa FA []) (nth fa fIntLN []) (nth fa fIntT []) (q z) x y)))) as s E H.
  - lia.
  - split; [auto|]. split; [auto|]. split; [eapply rep_ext; [exact Rd|]; intros; cbn [AderSpec.sum]; ring|]. intros R. exact (R0 R).
  - intros fa (((c0 & c1) & d) & u) Hfa (Lc0 & Lc1 & R1 & R2).
    destruct (HLN fa tE q c0 ltac:(lia) Rt Lc0) as (c0' & E1 & Rf). rewrite E1. cbn [bind]. clear E1.
    rewrite (rd_ok _ _ []) by lia. cbn [bind].
    destruct (fluxEG (nth fa fIntLN []) q c0' (nth fa fsE []) (nth fa FE []) fa c1 d _ Rf (IE fa ltac:(lia)) ltac:(lia) Lc1 R1) as (c1' & d' & E1 & E2 & Lc1' & R1').
    rewrite E1. cbn [bind]. rewrite E2. cbn [bind]. clear E1 E2.
    destruct (0 <? nRm) eqn:R.
    + apply Nat.ltb_lt in R. destruct (SfA R) as (LfA & IA). rewrite (rd_ok _ _ []) by lia. cbn [bind].
      destruct (fluxAG (nth fa fIntLN []) q c0' (nth fa fsA []) (nth fa FA []) fa c1' u _ R Rf (IA fa ltac:(lia)) ltac:(lia) Lc1' (R2 R)) as (c2 & u' & E1 & E2 & Lc2 & R2').
      rewrite E1. cbn [bind]. rewrite E2. cbn [bind]. clear E1 E2.
      eexists. split; [reflexivity|]. split; [apply Rf|]. split; [auto|]. split.
      * eapply rep_ext; [exact R1'|]. intros. cbn [AderSpec.sum]. ring.
      * intros _. exact R2'.
    + eexists. split; [reflexivity|]. split; [apply Rf|]. split; [auto|]. split; [|apply Nat.ltb_ge in R; intros; lia].
      eapply rep_ext; [exact R1'|]. intros. cbn [AderSpec.sum]. ring.
  - destruct s as (((c0 & c1) & d) & u). destruct H as (Lc0 & Lc1 & R1 & R2). cbn [bind]. destruct (0 <? nRm) eqn:R.
    + apply Nat.ltb_lt in R. destruct (scatter_ok A cf rfs Hrf u dofsA _ fA (R2 R) LdA RdA) as (dA' & E1 & LA & RA). rewrite E1. cbn [bind]. exists d, dA', c0, c1. split; [reflexivity|]. auto.
    + cbn [bind]. exists d, dofsA, c0, c1. split; [reflexivity|]. split; [auto|]. split; [auto|]. split; [exact R1|]. split; [auto|]. apply Nat.ltb_ge in R. intros; lia.
Qed.

Lemma neighFluxIntG_ok fa vId fId t q o : fluxId cf fa vId fId < nFa + nFluxN (cEl cf) -> rep nE nMd t q -> length o = nE * nMdFa * nCr ->
  exists o', neighFluxIntG cf mmLN fa vId fId t o = Ok o' /\ rep nE nMdFa o' (fun z => faceInt (nth (fluxId cf fa vId fId) fIntLN []) (q z)).
Proof. intros Hid Rt Lo. apply (HLN (fluxId cf fa vId fId) t q o Hid Rt Lo). Qed.

Lemma surfNeighG_ok fa vId fId f fA FE FA t pre d u scr0 scr1 q fE fU : fa < nFa -> fluxId cf fa vId fId < nFa + nFluxN (cEl cf) ->
  isE f FE -> (0 < nRm -> isA fA FA) -> length scr0 = nE * nMdFa * nCr -> length scr1 = nE * nMdFa * nCr ->
  match pre with None => rep nE nMd t q | Some p => rep nE nMdFa p (fun z => faceInt (nth (fluxId cf fa vId fId) fIntLN []) (q z)) end ->
  rep nE nMd d fE -> rep nM nMd u fU ->
  exists d' u' scr0' scr1', surfNeighG cf mmLN mmFsE mmFsA mmT mmTA fa vId fId f fA t pre d u scr0 scr1 = Ok (d', u', scr0', scr1') /\
    length scr0' = nE * nMdFa * nCr /\ length scr1' = nE * nMdFa * nCr /\
    rep nE nMd d' (fun z x y => add (fE z x y) (surf FE (nth (fluxId cf fa vId fId) fIntLN []) (nth fa fIntT []) (q z) x y)) /\
    rep nM nMd u' (fun z x y => if 0 <? nRm then add (fU z x y) (surf FA (nth (fluxId cf fa vId fId) fIntLN []) (nth fa fIntT []) (q z) x y) else fU z x y).
Proof.
  intros Hfa Hid Lf LfA L0 L1 Pre Rd Ru. unfold surfNeighG. set (F := nth (fluxId cf fa vId fId) fIntLN []) in *.
  assert (G : exists fi c0, match pre with None => o <- neighFluxIntG cf mmLN fa vId fId t scr0;; Ok (o, o) | Some p => Ok (p, scr0) end = Ok (fi, c0) /\
    length c0 = nE * nMdFa * nCr /\ rep nE nMdFa fi (fun z => faceInt F (q z))).
  { destruct pre as [p|]; [exists p, scr0; auto|]. destruct (neighFluxIntG_ok fa vId fId t q scr0 Hid Pre L0) as (o & E & R). rewrite E. cbn [bind]. exists o, o. split; [auto|]. split; [apply R|exact R]. }
  destruct G as (fi & c0 & E & Lc0 & Rf). rewrite E. cbn [bind]. clear E.
  destruct (fluxEG F q fi f FE fa scr1 d _ Rf Lf Hfa L1 Rd) as (c1' & d' & E1 & E2 & Lc1' & R1'). rewrite E1. cbn [bind]. rewrite E2. cbn [bind].
  destruct (0 <? nRm) eqn:R.
  - apply Nat.ltb_lt in R. destruct (fluxAG F q fi fA FA fa c1' u _ R Rf (LfA R) Hfa Lc1' Ru) as (c2 & u' & E3 & E4 & Lc2 & R2'). rewrite E3. cbn [bind]. rewrite E4. cbn [bind].
    exists d', u', c0, c2. split; [reflexivity|]. auto.
  - exists d', u, c0, c1'. split; [reflexivity|]. auto.
Qed.
End Surf.

End GenV.
