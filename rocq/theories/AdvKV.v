(** Kernels of the advection equation: values of the results. *)
From Coq Require Import Ring.
From Verif Require Import Util MeshConn MatMul Props_Mat Ader AderSpec AderV AderCk Props_Ader AdvK AdvKSpec.

Section V.
Context {T : Type}.
Variables (A : alg T) (cf : conf).
Local Notation zero := (aZero A).
Local Notation one := (aOne A).
Local Notation add := (aAdd A).
Local Notation sub := (aSub A).
Local Notation mul := (aMul A).
Local Notation div := (aDiv A).
Local Notation opp := (aOpp A).
Local Notation ofN := (aOfN A).
Local Notation isz := (aIsz A).
Add Ring TRA : (aRT A).
Local Notation nDi := (nDis (cEl cf)).
Local Notation nMd := (nModes (cEl cf) (cSp cf)).
Local Notation nMdFa := (nModesFa (cEl cf) (cSp cf)).
Local Notation nFa := (nElFas (cEl cf)).
Local Notation nCr := (cCrs cf).
Local Notation sum := (AderSpec.sum A).
Local Notation rep1 := (rep1 A cf).
Local Notation ent := (ent A).
Local Notation run := (run_ zero add mul isz).
Local Notation AC := (kAC one cf).
Local Notation BC := (kBC one cf).
Local Notation sc := (sc A).
Local Opaque nModes nModesCk nQtsE nQtsM nDis nModesFa nElFas.

Lemma rep1_ext n l f g : rep1 n l f -> (forall z y, z < nCr -> y < n -> f z y = g z y) -> rep1 n l g.
Proof. intros H E. eapply rep_ext; [exact H|]. intros. now apply E. Qed.
Lemma rep1_any n l : length l = n * nCr -> rep1 n l (fun z y => nth (pos nCr n 0 y z) l zero).
Proof. intros L. eapply rep_ext; [apply rep_any; rewrite L; lia|]. intros z x y Hz Hx Hy. now replace x with 0 by lia. Qed.
Lemma rep1_len n l f : rep1 n l f -> length l = n * nCr.
Proof. intros (L & _). lia. Qed.

Lemma ac1 n k beta a b c fa fc : rep1 k a fa -> length b = k * n -> rep1 n c fc ->
  exists c', run (AC 1 n k k n n beta) a b c = Ok c' /\ rep1 n c' (fun z y => add (sc beta (fc z y)) (sum k (fun l => mul (fa z l) (ent n b l y)))).
Proof.
  intros Ha Lb Hc. destruct (run_ac A cf 1 n k 1 k n n 1 k beta a b c _ _ ltac:(lia) ltac:(lia) ltac:(lia) ltac:(lia) ltac:(lia) ltac:(lia) Ha Lb Hc) as (c' & E & R).
  exists c'. split; [exact E|]. eapply rep_ext; [exact R|]. intros z x y Hz Hx Hy. cbv beta. rewrite (proj2 (Nat.ltb_lt x 1) Hx), (proj2 (Nat.ltb_lt y n) Hy). reflexivity.
Qed.
Lemma bc1 n ldA beta a b c fb fc : a <> [] -> rep1 n b fb -> rep1 n c fc ->
  exists c', run (BC 1 n 1 ldA n n beta) a b c = Ok c' /\ rep1 n c' (fun z y => add (sc beta (fc z y)) (mul (nth 0 a zero) (fb z y))).
Proof.
  intros Ha (Lb & Vb) (Lc & Vc). unfold run_, vanillaRun, kBC. cbn [vAC vBC vCrs vM vN vK vLdA vLdB vLdC vAlpha vBeta].
  destruct (C37_fused_BC add mul zero isz zero nCr 1 n 1 ldA n n one beta a b c) as (c' & E & L & V & U).
  - lia.
  - apply (covers_ge _ _ _ _ 1); auto.
  - intros x l z Hx Hl Hz. unfold pos. destruct a; [contradiction|]. replace x with 0 by lia. cbn [length]. lia.
  - apply (covers_ge _ _ _ _ 1); auto.
  - exists c'. split; [exact E|]. split; [lia|]. intros z x y Hz Hx Hy. rewrite V by auto. rewrite (sumOf_sum A). unfold scaled, AderV.sc. rewrite Vc by auto. cbn [AderSpec.sum].
    rewrite Vb by auto. replace (pos 1 ldA x 0 0) with 0 by (unfold pos; replace x with 0 by lia; lia). ring.
Qed.
Lemma sc_0 v : sc zero v = zero. Proof. unfold AderV.sc. now rewrite (aIz A). Qed.
Lemma sc_1 v : sc one v = v. Proof. unfold AderV.sc. rewrite (aIo A). ring. Qed.

Lemma axpy1 s i o f g : rep1 nMd o g -> rep1 nMd i f -> exists o', axpyE add mul cf 1 nMd s i o = Ok o' /\ rep1 nMd o' (fun z y => add (g z y) (mul s (f z y))).
Proof.
  intros Ro Ri. destruct (axpyE_ok A cf 1 nMd s i o _ _ ltac:(lia) Ro Ri) as (o' & E & R). exists o'. split; [exact E|]. eapply rep_ext; [exact R|]. intros z x y Hz Hx Hy. cbv beta.
  now rewrite (proj2 (Nat.ltb_lt _ _) Hy).
Qed.
Lemma scale1 s i o f : length o = nMd * nCr -> rep1 nMd i f -> exists o', scaleE mul cf 1 s i o = Ok o' /\ rep1 nMd o' (fun z y => mul s (f z y)).
Proof. intros L Ri. destruct (scaleE_ok A cf 1 s i o _ ltac:(lia) Ri) as (o' & E & R). exists o'. split; [exact E|exact R]. Qed.
Lemma copy1 i o f : length o = nMd * nCr -> rep1 nMd i f -> exists o', copyE cf 1 i o = Ok o' /\ rep1 nMd o' f.
Proof. intros L Ri. destruct (copyE_ok A cf 1 i o _ ltac:(lia) Ri) as (o' & E & R). exists o'. split; [exact E|exact R]. Qed.
Lemma zero1 o : length o = nMd * nCr -> exists o', zeroE zero cf 1 o = Ok o' /\ rep1 nMd o' (fun _ _ => zero).
Proof. intros L. destruct (zeroE_ok A cf 1 o ltac:(lia)) as (o' & E & R). exists o'. split; [exact E|exact R]. Qed.
Lemma bin1 (g : T -> T -> T) i o fi fo : rep1 nMd i fi -> rep1 nMd o fo ->
  exists o', loop3 cf 1 nMd (fun p o => y <- rd o p;; x <- rd i p;; wr o p (g y x)) o = Ok o' /\ rep1 nMd o' (fun z y => g (fo z y) (fi z y)).
Proof.
  intros Ri Ro. destruct (loop3_ok A cf 1 1 nMd (fun p o => y <- rd o p;; x <- rd i p;; wr o p (g y x)) (fun p v => g v (nth p i zero)) o _ ltac:(lia) ltac:(lia) Ro) as (o' & E & H).
  { intros p c Hp Lc. rewrite (rd_ok _ _ zero) by lia. cbn [bind]. rewrite (rd_ok _ _ zero) by (destruct Ri; lia). cbn [bind]. rewrite wr_ok by lia. reflexivity. }
  exists o'. split; [exact E|]. eapply rep_ext; [exact H|]. intros z x y Hz Hx Hy. cbv beta. rewrite (proj2 (Nat.ltb_lt _ _) Hx), (proj2 (Nat.ltb_lt _ _) Hy). cbn [andb]. f_equal. apply Ri; auto.
Qed.
Lemma add1 i o fi fo : rep1 nMd i fi -> rep1 nMd o fo -> exists o', addA add cf i o = Ok o' /\ rep1 nMd o' (fun z y => add (fo z y) (fi z y)).
Proof. apply bin1. Qed.
Lemma diff1 a b o fa fb : rep1 nMd a fa -> rep1 nMd b fb -> length o = nMd * nCr -> exists o', diffA sub cf a b o = Ok o' /\ rep1 nMd o' (fun z y => sub (fa z y) (fb z y)).
Proof.
  intros Ra Rb Lo. pose proof (rep1_any _ _ Lo) as Ro. unfold diffA.
  destruct (loop3_ok A cf 1 1 nMd (fun p o => x <- rd a p;; y <- rd b p;; wr o p (sub x y)) (fun p v => sub (nth p a zero) (nth p b zero)) o _ ltac:(lia) ltac:(lia) Ro) as (o' & E & H).
  { intros p c Hp Lc. rewrite (rd_ok _ _ zero) by (destruct Ra; lia). cbn [bind]. rewrite (rd_ok _ _ zero) by (destruct Rb; lia). cbn [bind]. rewrite wr_ok by lia. reflexivity. }
  exists o'. split; [exact E|]. eapply rep_ext; [exact H|]. intros z x y Hz Hx Hy. cbv beta. rewrite (proj2 (Nat.ltb_lt _ _) Hx), (proj2 (Nat.ltb_lt _ _) Hy). cbn [andb]. f_equal; [apply Ra|apply Rb]; auto.
Qed.

Lemma skipn_ne {X} (l : list X) n : n < length l -> skipn n l <> [].
Proof. intros H E. pose proof (skipn_length n l) as L. rewrite E in L. cbn in L. lia. Qed.
Lemma nth0_skipn (l : list T) n : nth 0 (skipn n l) zero = nth n l zero.
Proof. rewrite (nth_skipn n l 0 zero). f_equal. lia. Qed.

(** the sum over the directions, for the matrices [ms] *)
Definition matK (ms : list (list T)) (di l y : nat) : T := ent nMd (nth di ms []) l y.
Lemma ent_storeT st di l y : sized nDi (nMd * nMd) st -> di < nDi -> l < nMd -> y < nMd -> matK (storeT opp st) di l y = predK A cf st di l y.
Proof.
  intros (L & S) Hd Hl Hy. unfold matK, predK, storeT, AderSpec.ent. rewrite (nth_indep _ [] (map opp [])) by (rewrite map_length; lia). rewrite (map_nth (map opp)).
  assert (B : l * nMd + y < length (nth di st [])) by (rewrite S by exact Hd; nia). rewrite (nth_indep _ zero (opp zero)) by (rewrite map_length; exact B). now rewrite (map_nth opp).
Qed.
Lemma sized_storeT st : sized nDi (nMd * nMd) st -> sized nDi (nMd * nMd) (storeT opp st).
Proof.
  intros (L & S). split; [unfold storeT; now rewrite map_length|]. intros i Hi. unfold storeT. rewrite (nth_indep _ [] (map opp [])) by (rewrite map_length; lia). rewrite (map_nth (map opp)), map_length. auto.
Qed.

Local Notation opM ms star := (opS A cf (matK ms) star).
Lemma opS_ext K K' star q q' y : (forall di l, di < nDi -> l < nMd -> K di l y = K' di l y) -> (forall l, l < nMd -> q l = q' l) -> opS A cf K star q y = opS A cf K' star q' y.
Proof. intros HK Hq. apply (sum_ext A). intros di Hd. f_equal. apply (sum_ext A). intros l Hl. now rewrite HK, Hq. Qed.
Lemma powS_ext K K' star n q y : (forall di l y, di < nDi -> l < nMd -> y < nMd -> K di l y = K' di l y) -> y < nMd -> powS A cf K star n q y = powS A cf K' star n q y.
Proof. intros HK. revert y. induction n as [|n IH]; intros y Hy; cbn [powS]; [reflexivity|]. apply opS_ext; intros; [now apply HK|now apply IH]. Qed.

(** *** Time prediction *)
Section Ck.
Variables (ms : list (list T)) (dT : T) (star dofs scr : list T) (der : list (list T)) (tInt : list T) (q : nat -> nat -> T).
Hypothesis HT : 1 <= cTi cf.
Hypothesis Hm : sized nDi (nMd * nMd) ms.
Hypothesis Hst : length star = nDi.
Local Notation D d := (fun z => powS A cf (matK ms) star d (q z)).
Definition derOk (n : nat) (der : list (list T)) : Prop := sized (cTi cf) (nMd * nCr) der /\ forall d, d < n -> rep1 nMd (nth d der []) (D d).

Lemma dirs_ok de sr dr0 : 1 <= de < cTi cf -> length sr = nMd * nCr -> derOk de dr0 -> rep1 nMd (nth de dr0 []) (fun _ _ => zero) ->
  exists scr' der', for_ 0 nDi (fun di s => let '(scr, der) := s in
    p <- rd der (de - 1);; m <- rd ms di;; scr <- run (AC 1 nMd nMd nMd nMd nMd zero) p m scr;;
    e <- rd der de;; e <- run (BC 1 nMd 1 1 nMd nMd one) (skipn di star) scr e;; der <- wr der de e;; Ok (scr, der)) (sr, dr0) = Ok (scr', der') /\
    length scr' = nMd * nCr /\ derOk (S de) der'.
Proof.
  intros Hde Ls (Sd & Vd) Vz.
  loop (fun n (s : list T * list (list T)) => length (fst s) = nMd * nCr /\ derOk de (snd s) /\
    rep1 nMd (nth de (snd s) []) (fun z y => sum n (fun di => mul (nth di star zero) (sum nMd (fun l => mul (D (de - 1) z l) (matK ms di l y)))))) as s E H.
  - lia.
  - cbn [fst snd]. split; [exact Ls|]. split; [now split|]. exact Vz.
  - intros di (sc0 & dr) Hdi (L0 & (S0 & V0) & R0). cbn [fst snd] in *. rewrite (rd_sized _ _ _ (de - 1) S0) by lia. cbn [bind]. rewrite (rd_sized _ _ _ di Hm) by lia. cbn [bind].
    destruct (ac1 nMd nMd zero (nth (de - 1) dr []) (nth di ms []) sc0 _ _ (V0 (de - 1) ltac:(lia)) ltac:(apply Hm; lia) (rep1_any _ _ L0)) as (sc1 & E1 & R1). rewrite E1. cbn [bind]. clear E1.
    rewrite (rd_sized _ _ _ de S0) by lia. cbn [bind].
    destruct (bc1 nMd 1 one (skipn di star) sc1 (nth de dr []) _ _ (skipn_ne star di ltac:(lia)) R1 R0) as (e & E2 & R2). rewrite E2. cbn [bind]. clear E2.
    rewrite (wr_sized _ _ _ de _ S0) by lia. cbn [bind]. eexists. split; [reflexivity|]. cbn [fst snd]. split; [exact (rep1_len _ _ _ R1)|]. split.
    + split; [apply sized_upd; [exact S0|exact (rep1_len _ _ _ R2)]|]. intros d Hd. rewrite nth_upd_ne by lia. now apply V0.
    + rewrite nth_upd_eq by (destruct S0; lia). eapply rep1_ext; [exact R2|]. intros z y Hz Hy. cbv beta. rewrite sc_1, sc_0, nth0_skipn. cbn [AderSpec.sum]. unfold matK. ring.
  - destruct s as (sc0 & dr). cbn [fst snd] in H. destruct H as (L0 & (S0 & V0) & R0). exists sc0, dr. split; [reflexivity|]. split; [exact L0|]. split; [exact S0|].
    intros d Hd. destruct (Nat.eq_dec d de) as [->|N]; [|apply V0; lia]. eapply rep1_ext; [exact R0|]. intros z y Hz Hy. destruct de as [|k]; [lia|]. replace (S k - 1) with k by lia. reflexivity.
Qed.

Lemma ckA_ok : length scr = nMd * nCr -> sized (cTi cf) (nMd * nCr) der -> rep1 nMd dofs q -> length tInt = nMd * nCr ->
  exists der' t', ckA zero one add mul div ofN isz cf ms dT star dofs scr der tInt = Ok (der', t') /\ derOk (cTi cf) der' /\
    rep1 nMd t' (fun z => predS A cf (matK ms) star dT (q z)).
Proof.
  intros Ls Sd Rq Lt. unfold ckA. rewrite (rd_sized _ _ _ 0 Sd) by lia. cbn [bind].
  destruct (copy1 dofs (nth 0 der []) q ltac:(apply Sd; lia) Rq) as (d0 & E0 & R0). rewrite E0. cbn [bind]. clear E0. rewrite (wr_sized _ _ _ 0 _ Sd) by lia. cbn [bind].
  destruct (scale1 dT dofs tInt q Lt Rq) as (t1 & E1 & R1). rewrite E1. cbn [bind]. clear E1.
  loop (fun de (s : T * list T * list (list T) * list T) => let '(sca, sr, dr, ti) := s in sca = scal A dT (de - 1) /\ length sr = nMd * nCr /\ derOk de dr /\
    rep1 nMd ti (fun z y => sum de (fun d => mul (scal A dT d) (D d z y)))) as s E H.
  - lia.
  - split; [reflexivity|]. split; [exact Ls|]. split.
    + split; [apply sized_upd; [exact Sd|exact (rep1_len _ _ _ R0)]|]. intros d Hd. replace d with 0 by lia. rewrite nth_upd_eq by (destruct Sd; lia). exact R0.
    + eapply rep1_ext; [exact R1|]. intros z y Hz Hy. cbn [AderSpec.sum scal powS]. ring.
  - intros de (((sca & sr) & dr) & ti) Hde (Es & L1 & (S1 & V1) & R2). unfold ckA_step. rewrite (rd_sized _ _ _ de S1) by lia. cbn [bind].
    destruct (zero1 (nth de dr []) ltac:(apply S1; lia)) as (d1 & E1 & Rz). rewrite E1. cbn [bind]. clear E1. rewrite (wr_sized _ _ _ de _ S1) by lia. cbn [bind].
    destruct (dirs_ok de sr (upd dr de d1) Hde L1) as (sr' & dr' & E2 & L2 & (S2 & V2)).
    { split; [apply sized_upd; [exact S1|exact (rep1_len _ _ _ Rz)]|]. intros d Hd. rewrite nth_upd_ne by lia. now apply V1. }
    { rewrite nth_upd_eq by (destruct S1; lia). exact Rz. }
    rewrite E2. cbn [bind]. clear E2. rewrite (rd_sized _ _ _ de S2) by lia. cbn [bind].
    destruct (axpy1 (mul sca (div dT (ofN (de + 1)))) (nth de dr' []) ti _ _ R2 (V2 de ltac:(lia))) as (t2 & E3 & R3). rewrite E3. cbn [bind]. clear E3.
    assert (Sc : mul sca (div dT (ofN (de + 1))) = scal A dT de) by (rewrite Es; symmetry; apply scal_S; lia).
    eexists. split; [reflexivity|]. split; [rewrite Sc; f_equal; lia|]. split; [exact L2|]. split; [now split|]. eapply rep1_ext; [exact R3|]. intros z y Hz Hy. cbv beta. rewrite Sc. reflexivity.
  - destruct s as (((sca & sr) & dr) & ti). destruct H as (_ & _ & H1 & H2). cbn [bind]. exists dr, ti. auto.
Qed.
Lemma integrateA_ok dt o dr : derOk (cTi cf) dr -> length o = nMd * nCr ->
  exists o', integrateA add mul div ofN cf dt dr o = Ok o' /\ rep1 nMd o' (fun z => predS A cf (matK ms) star dt (q z)).
Proof.
  intros (Sd & Vd) Lo. unfold integrateA. rewrite (rd_sized _ _ _ 0 Sd) by lia. cbn [bind].
  destruct (scale1 dt (nth 0 dr []) o _ Lo (Vd 0 ltac:(lia))) as (o1 & E1 & R1). rewrite E1. cbn [bind]. clear E1.
  loop (fun de (s : T * list T) => fst s = scal A dt (de - 1) /\ rep1 nMd (snd s) (fun z y => sum de (fun d => mul (scal A dt d) (D d z y)))) as s E H.
  - lia.
  - split; [reflexivity|]. eapply rep1_ext; [exact R1|]. intros z y Hz Hy. cbn [AderSpec.sum scal powS]. ring.
  - intros de (sca & o2) Hde (Hs & R2). cbn [fst snd] in Hs, R2. rewrite (rd_sized _ _ _ de Sd) by lia. cbn [bind].
    destruct (axpy1 (mul sca (div dt (ofN (de + 1)))) (nth de dr []) o2 _ _ R2 (Vd de ltac:(lia))) as (o3 & E3 & R3). rewrite E3. cbn [bind]. clear E3.
    assert (Sc : mul sca (div dt (ofN (de + 1))) = scal A dt de) by (rewrite Hs; symmetry; apply scal_S; lia).
    eexists. split; [reflexivity|]. cbn [fst snd]. split; [rewrite Sc; f_equal; lia|]. eapply rep1_ext; [exact R3|]. intros z y Hz Hy. cbv beta. rewrite Sc. reflexivity.
  - destruct s as (sca & o2). destruct H as (_ & R2). cbn [snd] in R2. cbn [bind]. exists o2. split; [reflexivity|exact R2].
Qed.
End Ck.

(** *** Volume and surface *)
Lemma volA_ok ms star t scr dofs tf q : sized nDi (nMd * nMd) ms -> length star = nDi -> length scr = nMd * nCr -> rep1 nMd t tf -> rep1 nMd dofs q ->
  exists o, volA zero one add mul isz cf ms star t scr dofs = Ok o /\ rep1 nMd o (fun z y => add (q z y) (opS A cf (matK ms) star (tf z) y)).
Proof.
  intros Hm Hst Ls Rt Rq. unfold volA.
  loop (fun n (s : list T * list T) => length (fst s) = nMd * nCr /\ rep1 nMd (snd s) (fun z y => add (q z y) (sum n (fun di => mul (nth di star zero) (sum nMd (fun l => mul (tf z l) (matK ms di l y))))))) as s E H.
  - lia.
  - cbn [fst snd]. split; [exact Ls|]. eapply rep1_ext; [exact Rq|]. intros. cbn [AderSpec.sum]. ring.
  - intros di (sc0 & o) Hdi (L0 & R0). cbn [fst snd] in *. rewrite (rd_sized _ _ _ di Hm) by lia. cbn [bind].
    destruct (ac1 nMd nMd zero t (nth di ms []) sc0 _ _ Rt ltac:(apply Hm; lia) (rep1_any _ _ L0)) as (sc1 & E1 & R1). rewrite E1. cbn [bind]. clear E1.
    destruct (bc1 nMd nMd one (skipn di star) sc1 o _ _ (skipn_ne star di ltac:(lia)) R1 R0) as (e & E2 & R2). rewrite E2. cbn [bind]. clear E2.
    eexists. split; [reflexivity|]. cbn [fst snd]. split; [exact (rep1_len _ _ _ R1)|]. eapply rep1_ext; [exact R2|]. intros z y Hz Hy. cbv beta. rewrite sc_1, sc_0, nth0_skipn. cbn [AderSpec.sum]. unfold matK. ring.
  - destruct s as (sc0 & o). cbn [bind]. exists o. split; [reflexivity|]. exact (proj2 H).
Qed.
Lemma faceA_ok F Ft fs t s0 s1 dofs tf q : length F = nMd * nMdFa -> length Ft = nMdFa * nMd -> fs <> [] -> length s0 = nMdFa * nCr -> length s1 = nMdFa * nCr -> rep1 nMd t tf -> rep1 nMd dofs q ->
  exists o, faceA zero one add mul isz cf F Ft fs t s0 s1 dofs = Ok o /\ rep1 nMd o (fun z y => add (q z y) (surfS A cf (nth 0 fs zero) F Ft (tf z) y)).
Proof.
  intros LF LT Hf L0 L1 Rt Rq. unfold faceA.
  destruct (ac1 nMdFa nMd zero t F s0 _ _ Rt LF (rep1_any _ _ L0)) as (x0 & E0 & R0). rewrite E0. cbn [bind]. clear E0.
  destruct (bc1 nMdFa 1 zero fs x0 s1 _ _ Hf R0 (rep1_any _ _ L1)) as (x1 & E1 & R1). rewrite E1. cbn [bind]. clear E1.
  destruct (ac1 nMd nMdFa one x1 Ft dofs _ _ R1 LT Rq) as (o & E2 & R2). exists o. split; [exact E2|]. eapply rep1_ext; [exact R2|]. intros z y Hz Hy. cbv beta. rewrite sc_1. f_equal.
  unfold surfS. apply (sum_ext A). intros m Hm. rewrite !sc_0. unfold faceS. ring.
Qed.
Lemma surfLocalA_ok fLN fT fs t s0 s1 dofs tf q : fluxMatrices cf fLN fT -> nFa <= length fs -> length s0 = nMdFa * nCr -> length s1 = nMdFa * nCr -> rep1 nMd t tf -> rep1 nMd dofs q ->
  exists o, surfLocalA zero one add mul isz cf fLN fT fs t s0 s1 dofs = Ok o /\
    rep1 nMd o (fun z y => add (q z y) (sum nFa (fun fa => surfS A cf (nth fa fs zero) (nth fa fLN []) (nth fa fT []) (tf z) y))).
Proof.
  intros (H1 & H2) Lf L0 L1 Rt Rq. unfold surfLocalA.
  loop (fun n o => rep1 nMd o (fun z y => add (q z y) (sum n (fun fa => surfS A cf (nth fa fs zero) (nth fa fLN []) (nth fa fT []) (tf z) y)))) as o E H.
  - lia.
  - eapply rep1_ext; [exact Rq|]. intros. cbn [AderSpec.sum]. ring.
  - intros fa o Hfa R. rewrite (rd_sized _ _ _ fa H1) by lia. cbn [bind]. rewrite (rd_sized _ _ _ fa H2) by lia. cbn [bind].
    destruct (faceA_ok (nth fa fLN []) (nth fa fT []) (skipn fa fs) t s0 s1 o tf _ ltac:(apply H1; lia) ltac:(apply H2; lia) (skipn_ne fs fa ltac:(lia)) L0 L1 Rt R) as (o' & E' & R').
    exists o'. split; [exact E'|]. eapply rep1_ext; [exact R'|]. intros z y Hz Hy. cbv beta. rewrite nth0_skipn. cbn [AderSpec.sum]. ring.
  - exists o. split; [reflexivity|exact H].
Qed.
Definition neighId (fa : nat) (vId : option nat) (fId : nat) : nat := match vId with Some v => nFa + (v * nFa + fId) | None => fa end.
Lemma surfNeighA_ok fLN fT fa vId fId f t s0 s1 dofs tf q : fluxMatrices cf fLN fT -> fa < nFa -> (forall v, vId = Some v -> v * nFa + fId < nFluxN (cEl cf)) ->
  length s0 = nMdFa * nCr -> length s1 = nMdFa * nCr -> rep1 nMd t tf -> rep1 nMd dofs q ->
  exists o, surfNeighA zero one add mul isz cf fLN fT fa vId fId f t s0 s1 dofs = Ok o /\
    rep1 nMd o (fun z y => add (q z y) (surfS A cf f (nth (neighId fa vId fId) fLN []) (nth fa fT []) (tf z) y)).
Proof.
  intros (H1 & H2) Hfa Hv L0 L1 Rt Rq. unfold surfNeighA.
  assert (B : neighId fa vId fId < nFa + nFluxN (cEl cf)) by (unfold neighId; destruct vId as [v|]; [specialize (Hv v eq_refl)|]; lia).
  replace (match vId with Some v => nFa + v * nFa + fId | None => fa end) with (neighId fa vId fId) by (unfold neighId; destruct vId; lia).
  rewrite (rd_sized _ _ _ _ H1) by exact B. cbn [bind]. rewrite (rd_sized _ _ _ fa H2) by lia. cbn [bind].
  apply (faceA_ok (nth (neighId fa vId fId) fLN []) (nth fa fT []) [f] t s0 s1 dofs tf q); auto; [apply H1; exact B|apply H2; exact Hfa|discriminate].
Qed.
End V.
