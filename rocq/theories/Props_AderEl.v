(** C77: local time stepping with the ADER-DG solver.  Any order of local steps, neighbouring steps and messages which respects the
    dependencies gives the states of the scheme; the distribution to partitions does not matter. *)
From Coq Require Import Ring.
From Verif Require Import Util MeshConn MatMul Props_Mat Sparse Lts Ader AderSpec AderV AderCk AderInt Props_Ader AderEl AderElSpec AderElV AderLtsSpec AderLts.
Local Open Scope nat_scope.

Section C77.
Context {T : Type}.
Variables (A : alg T) (cf : conf) (U : @setup T).
Local Notation nFa := (nElFas (cEl cf)).
Local Notation nMd := (nModes (cEl cf) (cSp cf)).
Local Notation nMdFa := (nModesFa (cEl cf) (cSp cf)).
Local Notation nE := (nQtsE (cEl cf)).
Local Notation nM := (nQtsM (cEl cf)).
Local Notation nCr := (cCrs cf).
Local Notation state := (@state T).
Add Ring TR8 : (aRT A).
Local Opaque nModes nModesCk nQtsE nQtsM nDis nModesFa nElFas.

(** *** The steps of one time group *)
Theorem C77_local_step K fl chars vIds firstTs dt hdt pts J first n s (rel : nat -> nat -> comparison) (less greater : nat -> bool) (q : nat -> nat -> state) g1 :
  good A cf U -> kernelsOf A cf U = Ok K -> junkOk cf J -> lshape cf U s -> first + n <= uN U -> length vIds = uN U ->
  (forall el, first <= el < first + n -> localPre A cf fl chars vIds el s (rel el) (less el) (greater el) (q el) (g1 el)) ->
  exists s' new, local (aZero A) (aOne A) (aAdd A) (aSub A) (aMul A) (aDiv A) (aOfN A) (aIsz A) cf K (uS U) fl chars vIds firstTs dt hdt pts J first n s = Ok s' /\ lshape cf U s' /\
    (forall el, ~ (first <= el < first + n) -> sameEl cf s s' el) /\
    (forall el, first <= el < first + n -> localPost A cf U vIds firstTs dt hdt el s s' (rel el) (less el) (greater el) (q el) (g1 el)) /\
    lRec s' = lRec s ++ concat new /\ length new = n /\ (forall i, i < n -> length (nth i new []) = length (pts (first + i))) /\
    (cRms cf = 0 -> forall i j, i < n -> j < length (pts (first + i)) ->
       rep A cf nE nMd (nth j (nth i new []) []) (fun z => fst (predAt A cf U (first + i) (nth j (pts (first + i)) (aZero A)) (q (first + i) z)))).
Proof. apply local_ok. Qed.

Theorem C77_neighbouring_step K fl M chars firstTs t0s t1s t2s recv J first n dE dA x0 x1 (out : nat -> nat -> bool) (id : nat -> nat -> nat) (d : nat -> nat -> nat -> nat -> nat -> T) (q : nat -> nat -> state) :
  good A cf U -> kernelsOf A cf U = Ok K -> junkOk cf J -> first + n <= uN U -> length dE = uN U -> length dA = uN U -> length x0 = nE * nMdFa * nCr -> length x1 = nE * nMdFa * nCr ->
  (forall el, first <= el < first + n -> (exists c, nth_error chars el = Some c /\ forall fa, fa < nFa -> faceIn A cf U fl M c firstTs t0s t1s t2s recv el fa (out el fa) (id el fa) (d el fa)) /\
     holds A cf (nth el dE []) (nth el dA []) (q el)) ->
  exists dE' dA' x0' x1', neigh (aZero A) (aAdd A) (aSub A) (aMul A) (aIsz A) cf K (uS U) fl M chars firstTs t0s t1s t2s recv J first n (dE, dA, x0, x1) = Ok (dE', dA', x0', x1') /\
    length dE' = uN U /\ length dA' = uN U /\ length x0' = nE * nMdFa * nCr /\ length x1' = nE * nMdFa * nCr /\
    (forall el, ~ (first <= el < first + n) -> nth el dE' [] = nth el dE [] /\ nth el dA' [] = nth el dA []) /\
    (forall el, first <= el < first + n -> holds A cf (nth el dE' []) (nth el dA' []) (fun z => plus A (q el z) (neighTerms A cf U el (out el) (id el) (fun fa => d el fa z)))).
Proof. apply neigh_ok. Qed.

(** *** The scheme *)
(** adjacent elements differ by at most one time group *)
Definition graded (mesh : nat -> nat -> face) (lvl : nat -> nat) : Prop :=
  forall el fa ne v f, el < uN U -> fa < nFa -> mesh el fa = Inner ne v f -> ne < uN U /\ lvl el <= S (lvl ne) /\ lvl ne <= S (lvl el).

Section Exists.
Variables (mesh : nat -> nat -> face) (lvl : nat -> nat) (dt hdt : nat -> nat -> T) (q0 : nat -> state).
(** states of the elements at tick [t]: element [el] reaches update k at tick k 2^lvl *)
Fixpoint table (t : nat) : nat -> nat -> state :=
  match t with
  | O => fun el _ => q0 el
  | S t' => fun el k => if k * 2 ^ lvl el =? S t' then update A cf U mesh lvl dt hdt (table t') el (k - 1) else table t' el k
  end.
Definition theQ (el k : nat) : state := table (k * 2 ^ lvl el) el k.

Lemma pow2 n : 1 <= 2 ^ n.
Proof. induction n; cbn [Nat.pow]; lia. Qed.
Lemma table_stable t el k : k * 2 ^ lvl el <= t -> table t el k = theQ el k.
Proof.
  intros H. unfold theQ. induction t as [|t IH].
  - now replace (k * 2 ^ lvl el) with 0 by lia.
  - destruct (Nat.eq_dec (k * 2 ^ lvl el) (S t)) as [E|N]; [now rewrite E|]. cbn [table]. rewrite (proj2 (Nat.eqb_neq _ _) N). apply IH. lia.
Qed.

Lemma neighTerms_ext el out id d d' : (forall fa, fa < nFa -> forall x y, d fa x y = d' fa x y) -> eqSt (neighTerms A cf U el out id d) (neighTerms A cf U el out id d').
Proof.
  intros E. assert (F : forall fs fa x y, fa < nFa -> faceTerm A cf U fs fa (id fa) (d fa) x y = faceTerm A cf U fs fa (id fa) (d' fa) x y).
  { intros fs fa x y Hfa. unfold faceTerm, surf. apply sum_ext. intros m _. f_equal. apply sum_ext. intros j _. f_equal. apply faceInt_ext. intros y'. now apply E. }
  split; intros; unfold neighTerms; cbn [fst snd].
  - apply sum_ext. intros fa Hfa. destruct (out fa); [reflexivity|]. now apply F.
  - f_equal. apply sum_ext. intros fa Hfa. destruct (out fa); [reflexivity|]. now apply F.
Qed.
Lemma theQ_scheme : graded mesh lvl -> scheme A cf U mesh lvl dt hdt q0 theQ.
Proof.
  intros Gr el Hel. split; [reflexivity|]. intros k. assert (P := pow2 (lvl el)). set (t := S k * 2 ^ lvl el - 1).
  assert (Et : S k * 2 ^ lvl el = S t) by (unfold t; nia).
  assert (Eq : theQ el (S k) = update A cf U mesh lvl dt hdt (table t) el k).
  { unfold theQ. rewrite Et. cbn [table]. rewrite Et, Nat.eqb_refl. now replace (S k - 1) with k by lia. }
  rewrite Eq. clear Eq. assert (E0 : table t el k = theQ el k) by (apply table_stable; nia).
  unfold update. rewrite E0.
  assert (D : forall fa, fa < nFa -> forall x y, data A cf U mesh lvl dt hdt (table t) el fa k x y = data A cf U mesh lvl dt hdt theQ el fa k x y).
  { intros fa Hfa x y. unfold data, full, half. destruct (mesh el fa) as [| |ne v f] eqn:Em; try now rewrite E0. destruct (Gr el fa ne v f Hel Hfa Em) as (_ & G1 & G2).
    destruct (Nat.compare_spec (lvl el) (lvl ne)) as [C|C|C].
    - rewrite (table_stable t ne k); [reflexivity|]. rewrite <- C. nia.
    - assert (lvl ne = S (lvl el)) by lia. assert (Hk := Nat.mul_div_le k 2 ltac:(lia)). rewrite (table_stable t ne (k / 2)); [reflexivity|]. rewrite H. cbn [Nat.pow]. nia.
    - assert (El : lvl el = S (lvl ne)) by lia. assert (P' := pow2 (lvl ne)). rewrite El in Et. cbn [Nat.pow] in Et. rewrite (table_stable t ne (2 * k)) by nia. rewrite (table_stable t ne (2 * k + 1)) by nia. reflexivity. }
  destruct (neighTerms_ext el (isOut mesh el) (matId cf mesh el) _ _ D) as (N1 & N2). unfold plus. split; intros; cbn [fst snd]; f_equal; auto.
Qed.
End Exists.

Theorem C77_scheme_exists mesh lvl (dt hdt : nat -> nat -> T) q0 : graded mesh lvl -> exists Q, scheme A cf U mesh lvl dt hdt q0 Q.
Proof. intros G. exists (theQ mesh lvl dt hdt q0). now apply theQ_scheme. Qed.

(** *** All schedules *)
(** Every admissible schedule runs without error; an element, whose neighbouring steps have caught up with its local steps, holds the
    state of the scheme after this number of updates. *)
Theorem C77_schedule mesh lvl (dt hdt : nat -> nat -> T) cross K fl M chars J mpi q0 Q ops L N Se R s0 recv0 net0 :
  good A cf U -> kernelsOf A cf U = Ok K -> junkOk cf J -> meshOk cf U mesh lvl cross M -> charsOk cf U mesh lvl fl chars -> length (aVId M) = uN U ->
  (mpi = false -> forall el fa, el < uN U -> fa < nFa -> crosses mesh cross el fa = false) ->
  (forall z, z < nCr -> scheme A cf U mesh lvl dt hdt (q0 z) (Q z)) -> initial A cf U mesh lvl cross q0 s0 recv0 net0 ->
  schedule cf U mesh lvl cross ops L N Se R ->
  exists s recv net, runOps A cf U mesh dt hdt K fl M chars J mpi ops (s0, recv0, net0) = Ok (s, recv, net) /\
    forall el, el < uN U -> N el <= L el <= S (N el) /\ (L el = N el -> holds A cf (nth el (lE s) []) (nth el (lA s) []) (fun z => Q z el (N el))).
Proof.
  intros HU HK HJ HM HC HV HP HQ HI HS.
  assert (HQ' : forall z, z < nCr -> forall el k, el < uN U -> eqSt (Q z el (S k)) (update A cf U mesh lvl dt hdt (Q z) el k)) by (intros z Hz el k Hel; now apply (HQ z Hz el Hel)).
  pose proof (initial_inv A cf U mesh lvl dt hdt cross M mpi HV HP Q HQ' q0 s0 recv0 net0 HI (fun z el Hz Hel => proj1 (HQ z Hz el Hel))) as I0.
  destruct (run_schedule A cf U mesh lvl dt hdt cross K fl M chars J mpi HU HK HJ HM HC HV HP Q HQ' ops L N Se R s0 recv0 net0 HS I0) as (s & recv & net & E & _ & _ & I).
  exists s, recv, net. split; [exact E|]. intros el Hel. destruct (I el Hel) as (H1 & H2 & _). split; [exact H1|]. intros EL. eapply holds_ext; [exact H2|]. intros z _. cbv beta. rewrite EL, Nat.eqb_refl. split; reflexivity.
Qed.

Lemma rep_unique nq n l l' f : rep A cf nq n l f -> rep A cf nq n l' f -> l = l'.
Proof.
  intros (L1 & V1) (L2 & V2). apply (nth_ext _ _ (aZero A) (aZero A)); [congruence|]. intros p Hp. rewrite L1 in Hp.
  assert (Pn : n <> 0 /\ nCr <> 0) by (split; intros E; rewrite E in Hp; lia). destruct Pn as (Pn & Pc).
  assert (Z := Nat.mod_upper_bound p nCr Pc). assert (Y := Nat.mod_upper_bound (p / nCr) n Pn).
  assert (X : p / nCr / n < nq). { apply Nat.div_lt_upper_bound; [auto|]. apply Nat.div_lt_upper_bound; [auto|]. lia. }
  assert (E : p = pos nCr n (p / nCr / n) (p / nCr mod n) (p mod nCr)).
  { assert (E1 := Nat.div_mod p nCr Pc). assert (E2 := Nat.div_mod (p / nCr) n Pn). unfold pos. revert E1 E2. generalize (p / nCr / n) as x. generalize (p / nCr mod n) as y. generalize (p mod nCr) as z. generalize (p / nCr) as a. clear. intros a z y x E1 E2. rewrite E1, E2. ring. }
  rewrite E. rewrite V1, V2; auto.
Qed.
Lemma holds_unique a b a' b' q : holds A cf a b q -> holds A cf a' b' q -> a = a' /\ b = b'.
Proof.
  intros (H1 & H2 & H3) (G1 & G2 & G3). split; [eapply rep_unique; eassumption|]. apply (nth_ext _ _ [] []); [congruence|]. intros rm Hrm. rewrite H2 in Hrm. eapply rep_unique; eauto.
Qed.

(** Two runs on the same mesh with the same DOFs at the beginning: different schedules, different distributions to partitions, different
    contents of all buffers and of the scratch memory.  An element, for which both runs have finished the same number of updates, has
    the same DOFs in both. *)
Theorem C77_same_result mesh lvl (dt hdt : nat -> nat -> T) K fl q0
    cross1 M1 chars1 J1 mpi1 ops1 L1 N1 Se1 R1 s1 recv1 net1 cross2 M2 chars2 J2 mpi2 ops2 L2 N2 Se2 R2 s2 recv2 net2 :
  good A cf U -> kernelsOf A cf U = Ok K ->
  (junkOk cf J1 /\ meshOk cf U mesh lvl cross1 M1 /\ charsOk cf U mesh lvl fl chars1 /\ length (aVId M1) = uN U /\ (mpi1 = false -> forall el fa, el < uN U -> fa < nFa -> crosses mesh cross1 el fa = false)) ->
  (junkOk cf J2 /\ meshOk cf U mesh lvl cross2 M2 /\ charsOk cf U mesh lvl fl chars2 /\ length (aVId M2) = uN U /\ (mpi2 = false -> forall el fa, el < uN U -> fa < nFa -> crosses mesh cross2 el fa = false)) ->
  initial A cf U mesh lvl cross1 q0 s1 recv1 net1 -> initial A cf U mesh lvl cross2 q0 s2 recv2 net2 ->
  schedule cf U mesh lvl cross1 ops1 L1 N1 Se1 R1 -> schedule cf U mesh lvl cross2 ops2 L2 N2 Se2 R2 ->
  exists t1 v1 w1 t2 v2 w2, runOps A cf U mesh dt hdt K fl M1 chars1 J1 mpi1 ops1 (s1, recv1, net1) = Ok (t1, v1, w1) /\ runOps A cf U mesh dt hdt K fl M2 chars2 J2 mpi2 ops2 (s2, recv2, net2) = Ok (t2, v2, w2) /\
    forall el, el < uN U -> L1 el = N1 el -> L2 el = N2 el -> N1 el = N2 el -> nth el (lE t1) [] = nth el (lE t2) [] /\ nth el (lA t1) [] = nth el (lA t2) [].
Proof.
  intros HU HK (A1 & A2 & A3 & A4 & A5) (B1 & B2 & B3 & B4 & B5) I1 I2 S1 S2.
  assert (G : graded mesh lvl). { intros el fa ne v f Hel Hfa Em. destruct (A2 el fa Hel Hfa) as (fid & ch & _ & _ & X). rewrite Em in X. destruct X as (_ & _ & _ & _ & _ & X1 & _ & _ & X2 & _). auto. }
  set (Q := fun z => theQ mesh lvl dt hdt (q0 z)).
  assert (HQ : forall z, z < nCr -> scheme A cf U mesh lvl dt hdt (q0 z) (Q z)) by (intros; now apply theQ_scheme).
  destruct (C77_schedule mesh lvl dt hdt cross1 K fl M1 chars1 J1 mpi1 q0 Q ops1 L1 N1 Se1 R1 s1 recv1 net1 HU HK A1 A2 A3 A4 A5 HQ I1 S1) as (t1 & v1 & w1 & E1 & H1).
  destruct (C77_schedule mesh lvl dt hdt cross2 K fl M2 chars2 J2 mpi2 q0 Q ops2 L2 N2 Se2 R2 s2 recv2 net2 HU HK B1 B2 B3 B4 B5 HQ I2 S2) as (t2 & v2 & w2 & E2 & H2).
  exists t1, v1, w1, t2, v2, w2. split; [exact E1|]. split; [exact E2|]. intros el Hel X1 X2 X3. eapply holds_unique; [now apply H1|]. rewrite X3. now apply H2.
Qed.
End C77.

(** *** Two triangles in two time groups, with one relaxation mechanism and two fused simulations: face 2 of element 0 is face 1 of element 1, the
    other faces are free surfaces and outflow boundaries. *)
Definition xlS : @solver Z := {| mStarE := [exStarE; exStarE]; mStarA := [exStarA; exStarA]; mSrcA := [exSrcA; exSrcA];
  mFsE0 := repeat (map (fun i => map Z.of_nat (seq i 25)) [1; 2; 3]) 2; mFsE1 := repeat (map (fun i => map Z.of_nat (seq i 25)) [4; 2; 1]) 2;
  mFsA0 := repeat (map (fun i => map Z.of_nat (seq i 15)) [1; 2; 5]) 2; mFsA1 := repeat (map (fun i => map Z.of_nat (seq i 15)) [3; 2; 7]) 2 |}.
Definition xlU : @setup Z := {| uStT := exStiffT; uSt := exStiff; uLN := exLN; uFT := exT; uRf := exRfs; uS := xlS; uN := 2 |}.
Definition xlMesh (el fa : nat) : face := match el, fa with 0, 0 => Free | 0, 2 => Inner 1 0 1 | 1, 1 => Inner 0 0 2 | 1, 2 => Free | _, _ => Outflow end.
Definition xlLvl (el : nat) : nat := el.
Definition xlCross (el fa : nat) : bool := match el, fa with 0, 2 | 1, 1 => true | _, _ => false end.
Definition xlNone (el fa : nat) : bool := false.
Definition xlFl := mkFlags 1 2 4 [8; 16; 32]%N [64; 128; 256]%N [512; 1024; 2048]%N.
Definition xlChars : list N := [2 + 8 + 16 + 256; 4 + 8 + 1024 + 32]%N.
Definition xlM (ad : list (list (option nat))) : adj := {| aFaChars := [2; 1; 0; 1; 2]%N; aOut := 1%N; aFree := 2%N; aElFa := [[0; 1; 2]; [3; 2; 4]]; aElFaEl := ad;
  aFId := [[0; 0; 1]; [0; 2; 0]]; aVId := [[None; None; Some 0]; [None; Some 0; None]] |}.
Definition xlM1 := xlM [[None; None; Some 1]; [None; Some 0; None]].
Definition xlM2 := xlM (repeat (repeat None 3) 2).
Definition xlJ : @junk Z := {| jA := zs 18; jDer := [[zs 18; zs 18]]; jT := [zs 18]; jE := zs 30 |}.
Definition xlDt (lv k : nat) : Z := match lv, k with 0, 0 => 2%Z | 0, _ => 6%Z | _, _ => 8%Z end.
Definition xlHdt (lv k : nat) : Z := match lv with 0 => 1%Z | _ => 2%Z end.
Definition xlS0 (send : list (@buffer Z)) : @lstate Z := {| lE := [exDofsE; exDofsE]; lA := [exDofsA; exDofsA]; l0 := [zs 30; zs 30]; l1 := [zs 30; []]; l2 := [[]; zs 30]; lSend := send; lRec := [];
  lScr := {| sTmp := zs 30; sDer := [zs 30; zs 30]; sFa0 := zs 20; sFa1 := zs 20 |} |}.
Definition xlNo : list (@buffer Z) := repeat None 6.
Definition xlSend : list (@buffer Z) := [None; None; Some [zs 20]; None; Some [zs 20; zs 20]; None].
Definition xlRecv : list (@buffer Z) := [None; None; Some [zs 20; zs 20]; None; Some [zs 20]; None].
Definition xlNet : @msgs Z := repeat [] 6.
Definition xlOps1 : list (@sop Z) := [OLocal 1 1 1 0 (fun _ => [1%Z]); OLocal 0 0 1 0 (fun _ => []); ONeigh 0 0 1 0; OLocal 0 0 1 1 (fun _ => []); ONeigh 0 0 1 1; ONeigh 1 1 1 0].
Definition xlOps2 : list (@sop Z) := [OLocal 0 0 1 0 (fun _ => []); OLocal 1 1 1 0 (fun _ => []); OSend 1 1; ORecv 0 2; ONeigh 0 0 1 0; OLocal 0 0 1 1 (fun _ => []); OSend 0 2; ORecv 1 1; ONeigh 1 1 1 0; ONeigh 0 0 1 1].

Transparent nModes nModesCk nQtsE nQtsM nDis nModesFa nElFas.
Ltac two H := match type of H with ?el < _ => destruct el as [|[|el]]; [| |exfalso; cbn in H; lia] end.
Ltac three H := match type of H with ?fa < _ => destruct fa as [|[|[|fa]]]; [| | |exfalso; cbn in H; lia] end.
Example xl_good : good algZ exCfg xlU.
Proof.
  split; [cbn; lia|]. split; [exact ex_lowers|]. split; [exact ex_testsLow|]. split; [exact ex_flux|]. split.
  { intros el Hel. two Hel; (split; [exact ex_matrices|exact (proj1 ex_volume)]). }
  repeat (split; [reflexivity|]). split; [|split; [|split]]; (split; [reflexivity|]; intros el Hel; two Hel; szd).
Qed.
Example xl_junk : junkOk exCfg xlJ.
Proof. split; [reflexivity|]. split; [|split; [szd|reflexivity]]. split; [reflexivity|]. intros rm Hrm. cbn in Hrm. destruct rm; [szd|lia]. Qed.
Ltac at2t := eexists; split; reflexivity.
Example xl_mesh1 : meshOk exCfg xlU xlMesh xlLvl xlNone xlM1.
Proof.
  intros el fa Hel Hfa. two Hel; three Hfa; (eexists _, _; split; [at2t|]; split; [reflexivity|]; cbn; try now split);
  (split; [reflexivity|]; split; [reflexivity|]; split; [at2t|]; split; [at2t|]; do 3 (split; [lia|]); split; [reflexivity|]; split; [cbv; lia|]; split; [at2t|]; eexists; reflexivity).
Qed.
Example xl_mesh2 : meshOk exCfg xlU xlMesh xlLvl xlCross xlM2.
Proof.
  intros el fa Hel Hfa. two Hel; three Hfa; (eexists _, _; split; [at2t|]; split; [reflexivity|]; cbn; try now split);
  (split; [reflexivity|]; split; [reflexivity|]; split; [at2t|]; split; [at2t|]; do 3 (split; [lia|]); split; [reflexivity|]; split; [cbv; lia|]; split; [eexists; at2t|reflexivity]).
Qed.
Example xl_chars : charsOk exCfg xlU xlMesh xlLvl xlFl xlChars.
Proof. intros el Hel. two Hel; (eexists; split; [reflexivity|]; split; [split; reflexivity|]; intros fa Hfa; three Hfa; (do 3 (split; [cbn; lia|]); split; [|split]; reflexivity)). Qed.
Example xl_init1 : initial algZ exCfg xlU xlMesh xlLvl xlNone (fun z _ => exQ z) (xlS0 xlNo) xlNo xlNet.
Proof.
  split; [do 6 (split; [reflexivity|]); split; [reflexivity|]; split; [szd|]; split; reflexivity|]. split; [reflexivity|]. split; [reflexivity|].
  intros el Hel. two Hel; (split; [exact ex_dofs|]; split; [reflexivity|]; split; [intros X; vm_compute in X; (reflexivity || discriminate X)|]; split; [intros X; vm_compute in X; (reflexivity || discriminate X)|];
    intros fa Hfa; three Hfa; split; reflexivity).
Qed.
Example xl_init2 : initial algZ exCfg xlU xlMesh xlLvl xlCross (fun z _ => exQ z) (xlS0 xlSend) xlRecv xlNet.
Proof.
  split; [do 6 (split; [reflexivity|]); split; [reflexivity|]; split; [szd|]; split; reflexivity|]. split; [reflexivity|]. split; [reflexivity|].
  intros el Hel. two Hel; (split; [exact ex_dofs|]; split; [reflexivity|]; split; [intros X; vm_compute in X; (reflexivity || discriminate X)|]; split; [intros X; vm_compute in X; (reflexivity || discriminate X)|];
    intros fa Hfa; three Hfa; first [split; reflexivity|eexists _, _; split; [reflexivity|]; split; [szd|]; split; [reflexivity|szd]]).
Qed.
Ltac rdy := split; [cbn; lia|]; let el := fresh "el" in let H := fresh "H" in intros el H;
  first [assert (el = 0) by (clear - H; lia)|assert (el = 1) by (clear - H; lia)]; subst el;
  split; [reflexivity|]; split; [reflexivity|]; split; [reflexivity|];
  let fa := fresh "fa" in let ne := fresh in let v := fresh in let f := fresh in let Hfa := fresh "Hfa" in let Em := fresh in intros fa ne v f Hfa Em;
  three Hfa; cbn in Em; try discriminate Em; injection Em as <- <- <-; cbv; try lia.
Example xl_sched1 : exists L N Se R, schedule exCfg xlU xlMesh xlLvl xlNone xlOps1 L N Se R /\ L 0 = 2 /\ N 0 = 2 /\ L 1 = 1 /\ N 1 = 1.
Proof.
  eexists _, _, _, _. split.
  - change xlOps1 with (((((([] ++ [OLocal 1 1 1 0 (fun _ => [1%Z])]) ++ [OLocal 0 0 1 0 (fun _ => [])]) ++ [ONeigh 0 0 1 0]) ++ [OLocal 0 0 1 1 (fun _ => [])]) ++ [ONeigh 0 0 1 1]) ++ [@ONeigh Z 1 1 1 0]).
    apply Sch_neigh; [apply Sch_neigh; [apply Sch_local; [apply Sch_neigh; [apply Sch_local; [apply Sch_local; [apply Sch_nil|]|]|]|]|]|]; rdy.
  - repeat split.
Qed.
Ltac rdm := split; [cbn; lia|]; split; [cbn; lia|]; split; [reflexivity|]; first [split; [eexists _, _, _; reflexivity|]; cbv; lia|eexists _, _, _; split; [reflexivity|]; cbv; lia].
Example xl_sched2 : exists L N Se R, schedule exCfg xlU xlMesh xlLvl xlCross xlOps2 L N Se R /\ L 0 = 2 /\ N 0 = 2 /\ L 1 = 1 /\ N 1 = 1.
Proof.
  eexists _, _, _, _. split.
  - change xlOps2 with (((((((((([] ++ [OLocal 0 0 1 0 (fun _ => [])]) ++ [OLocal 1 1 1 0 (fun _ => [])]) ++ [OSend 1 1]) ++ [ORecv 0 2]) ++ [ONeigh 0 0 1 0]) ++ [OLocal 0 0 1 1 (fun _ => [])]) ++ [OSend 0 2]) ++ [ORecv 1 1]) ++ [ONeigh 1 1 1 0]) ++ [@ONeigh Z 0 0 1 1]).
    apply Sch_neigh; [apply Sch_neigh; [apply Sch_recv; [apply Sch_send; [apply Sch_local; [apply Sch_neigh; [apply Sch_recv; [apply Sch_send; [apply Sch_local; [apply Sch_local; [apply Sch_nil|]|]|]|]|]|]|]|]|]|]; first [rdm|rdy].
  - repeat split.
Qed.
(** the two runs: the elements' DOFs change, and are the same *)
Definition xlRun : res bool :=
  K <- kernelsOf algZ exCfg xlU;;
  '(t1, _, _) <- runOps algZ exCfg xlU xlMesh xlDt xlHdt K xlFl xlM1 xlChars xlJ false xlOps1 (xlS0 xlNo, xlNo, xlNet);;
  '(t2, _, _) <- runOps algZ exCfg xlU xlMesh xlDt xlHdt K xlFl xlM2 xlChars xlJ true xlOps2 (xlS0 xlSend, xlRecv, xlNet);;
  Ok (forallb (fun el => eqz (nth el (lE t1) []) (nth el (lE t2) []) && eqz (nth 0 (nth el (lA t1) []) []) (nth 0 (nth el (lA t2) []) []) && negb (eqz (nth el (lE t1) []) exDofsE)) [0; 1] && (length (lRec t1) =? 1)).
Example xl_run : xlRun = Ok true.
Proof. vm_compute. reflexivity. Qed.

Print Assumptions C77_local_step.
Print Assumptions C77_neighbouring_step.
Print Assumptions C77_scheme_exists.
Print Assumptions C77_schedule.
Print Assumptions C77_same_result.
