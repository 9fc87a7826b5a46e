(** Proof of the balance. *)
From Coq Require Import Ring Permutation.
From Verif Require Import Util MeshConn MatMul Props_Mat Sparse Lts Ader AderSpec AderV Props_Ader AderEl AderElSpec AderLtsSpec AderConsSpec.
Local Open Scope nat_scope.

Section Cons.
Context {T : Type}.
Variables (A : alg T) (cf : conf) (U : @setup T).
Variables (mesh : nat -> nat -> face) (lvl : nat -> nat) (dt hdt : nat -> nat -> T).
Local Notation zero := (aZero A).
Local Notation add := (aAdd A).
Local Notation sub := (aSub A).
Local Notation mul := (aMul A).
Local Notation opp := (aOpp A).
Local Notation sum := (AderSpec.sum A).
Add Ring TRC : (aRT A).
Local Notation nMd := (nModes (cEl cf) (cSp cf)).
Local Notation nMdFa := (nModesFa (cEl cf) (cSp cf)).
Local Notation nFa := (nElFas (cEl cf)).
Local Notation nE := (nQtsE (cEl cf)).
Local Notation nDi := (nDis (cEl cf)).
Local Notation nM := (nQtsM (cEl cf)).
Local Notation nRm := (cRms cf).
Local Notation state := (@state T).
Local Opaque nModes nModesCk nQtsE nQtsM nDis nModesFa nElFas.
Variable w : nat -> nat -> T.
Variables (Hmode : 0 < nMd) (HmodeFa : 0 < nMdFa).
Variable HC : conservative A cf U mesh w.
Variable HS : meshSym cf U mesh lvl.

Local Notation ext := (sum_ext A).

Definition wsum (el : nat) (f : nat -> nat -> T) : T := sum nE (fun x => mul (w el x) (f x 0)).
Lemma wsum_add el f g : wsum el (fun x y => add (f x y) (g x y)) = add (wsum el f) (wsum el g).
Proof. unfold wsum. rewrite <- (sum_add A). apply ext. intros. ring. Qed.
Lemma wsum_sum el n f : wsum el (fun x y => sum n (fun i => f i x y)) = sum n (fun i => wsum el (f i)).
Proof. unfold wsum. rewrite <- (sum_swap A). apply ext. intros x Hx. now rewrite <- (sum_mul A). Qed.
Lemma wsum_ext el f g : (forall x, x < nE -> f x 0 = g x 0) -> wsum el f = wsum el g.
Proof. intros H. apply ext. intros x Hx. now rewrite H. Qed.

(** no contribution of the volume *)
Lemma wsum_vol el t : el < uN U -> wsum el (fst (opOf A cf sub (volK A cf (uSt U)) (stE U el) (stA U el) (srA U el) (uRf U) t)) = zero.
Proof.
  intros Hel. destruct HC as (H1 & _ & _ & H4 & _). unfold wsum. apply (sum_0 A). intros x Hx. unfold opOf, powOf. cbn [pow op fst].
  unfold opE. rewrite (sum_0 A nDi).
  - destruct (Nat.ltb_spec x nM) as [L|L]; [|ring]. destruct (Nat.eq_dec nRm 0) as [E|E].
    + rewrite E. cbn [AderSpec.sum]. ring.
    + rewrite (H4 ltac:(lia) el x Hel L). ring.
  - intros di Hdi. apply (sum_0 A). intros j Hj. unfold grad. rewrite (sum_0 A nMd); [ring|]. intros l Hl. unfold volK. rewrite (H1 di l Hdi Hl). ring.
Qed.
(** contribution of a face *)
Lemma wsum_surf el fa fs F t : fa < nFa -> wsum el (surf A cf fs F (intF U fa) t) = sum nE (fun j => mul (column A cf U w el fa fs j) (faceInt A cf F t j 0)).
Proof.
  intros Hfa. destruct HC as (_ & H2 & _). unfold wsum, surf.
  transitivity (sum nE (fun x => sum nE (fun j => mul (mul (ent A nMd (intF U fa) 0 0) (mul (w el x) (ent A nE fs x j))) (faceInt A cf F t j 0)))).
  - apply ext. intros x Hx. rewrite (sum_le A 1 nMdFa); [|lia|intros m Hm; rewrite (H2 fa m Hfa ltac:(lia)); ring]. cbn [AderSpec.sum].
    transitivity (mul (mul (w el x) (ent A nMd (intF U fa) 0 0)) (sum nE (fun j => mul (ent A nE fs x j) (faceInt A cf F t j 0)))); [ring|].
    rewrite <- (sum_mul A). apply ext. intros j Hj. ring.
  - rewrite (sum_swap A). apply ext. intros j Hj. unfold column. rewrite <- (sum_mul A nE (ent A nMd (intF U fa) 0 0)).
    transitivity (sum nE (fun x => mul (faceInt A cf F t j 0) (mul (ent A nMd (intF U fa) 0 0) (mul (w el x) (ent A nE fs x j))))); [apply ext; intros; ring|]. rewrite (sum_mul A). ring.
Qed.
Lemma faceInt_sum F n f j m : faceInt A cf F (fun x y => sum n (fun i => f i x y)) j m = sum n (fun i => faceInt A cf F (f i) j m).
Proof.
  unfold faceInt. rewrite <- (sum_swap A). apply ext. intros l Hl.
  transitivity (mul (ent A nMdFa F l m) (sum n (fun i => f i j l))); [ring|]. rewrite <- (sum_mul A). apply ext. intros. ring.
Qed.

(** the change of an element by its updates, face by face *)
Definition own (Q : nat -> nat -> state) (el fa k : nat) : T := sum nE (fun j => mul (column A cf U w el fa (fs0 U el fa) j) (faceInt A cf (projF U fa) (full A cf U lvl dt Q el k) j 0)).
Definition ngb (Q : nat -> nat -> state) (el fa k : nat) : T := if isOut mesh el fa then zero else
  sum nE (fun j => mul (column A cf U w el fa (fs1 U el fa) j) (faceInt A cf (projF U (matId cf mesh el fa)) (data A cf U mesh lvl dt hdt Q el fa k) j 0)).

Variable q0 : nat -> state.
Variable Q : nat -> nat -> state.
Variable HQ : scheme A cf U mesh lvl dt hdt q0 Q.

Lemma step el k : el < uN U -> wsum el (fst (Q el (S k))) = add (wsum el (fst (Q el k))) (sum nFa (fun fa => add (own Q el fa k) (ngb Q el fa k))).
Proof.
  intros Hel. destruct (HQ el Hel) as (_ & St). destruct (St k) as (E & _).
  rewrite (wsum_ext el (fst (Q el (S k))) _ (fun x _ => E x 0)). unfold update, ownTerms, plus. cbn [fst]. rewrite !wsum_add.
  rewrite (wsum_vol el _ Hel). unfold surfState. cbn [fst]. rewrite wsum_sum.
  unfold neighTerms. cbn [fst]. rewrite wsum_sum. rewrite (sum_add A).
  transitivity (add (wsum el (fst (Q el k))) (add (sum nFa (fun fa => own Q el fa k)) (sum nFa (fun fa => ngb Q el fa k)))); [|reflexivity].
  assert (E1 : sum nFa (fun i => wsum el (fun x y => surf A cf (nth i (nth el (mFsE0 (uS U)) []) []) (nth i (uLN U) []) (nth i (uFT U) []) (fst (predInt A cf U el (dt (lvl el) k) (Q el k))) x y)) = sum nFa (fun fa => own Q el fa k)).
  { apply ext. intros fa Hfa. apply wsum_surf. exact Hfa. }
  assert (E2 : sum nFa (fun i => wsum el (fun x y => if isOut mesh el i then zero else faceTerm A cf U (nth i (nth el (mFsE1 (uS U)) []) []) i (matId cf mesh el i) (data A cf U mesh lvl dt hdt Q el i k) x y)) = sum nFa (fun fa => ngb Q el fa k)).
  { apply ext. intros fa Hfa. unfold ngb. destruct (isOut mesh el fa).
    - unfold wsum. apply (sum_0 A). intros. ring.
    - apply wsum_surf. exact Hfa. }
  rewrite E1, E2. ring.
Qed.
Lemma steps el n : el < uN U -> wsum el (fst (Q el n)) = add (wsum el (fst (q0 el))) (sum n (fun k => sum nFa (fun fa => add (own Q el fa k) (ngb Q el fa k)))).
Proof.
  intros Hel. induction n as [|n IH]; cbn [AderSpec.sum].
  - rewrite (proj1 (HQ el Hel)). ring.
  - rewrite step, IH by exact Hel. ring.
Qed.

(** the data of the neighbour over the same time is the sum of the neighbour's integrals *)
Lemma sum_pairs n f : sum (2 * n) f = sum n (fun k => add (f (2 * k)) (f (2 * k + 1))).
Proof.
  induction n as [|n IH]; [reflexivity|]. replace (2 * S n) with (S (S (2 * n))) by lia. cbn [AderSpec.sum]. rewrite IH. replace (2 * n + 1) with (S (2 * n)) by lia. ring.
Qed.
Lemma data_sum el fa ne v f n n' x y : el < uN U -> fa < nFa -> mesh el fa = Inner ne v f -> n * 2 ^ lvl el = n' * 2 ^ lvl ne ->
  sum n (fun k => data A cf U mesh lvl dt hdt Q el fa k x y) = sum n' (fun k => full A cf U lvl dt Q ne k x y).
Proof.
  intros Hel Hfa Em Hn. destruct (HS el fa ne v f Hel Hfa Em) as (_ & _ & (L1 & L2) & _). unfold data. rewrite Em.
  assert (P : forall k, 2 ^ k <> 0) by (intros; now apply Nat.pow_nonzero).
  destruct (Nat.compare_spec (lvl el) (lvl ne)) as [E|E|E].
  - rewrite E in Hn. apply Nat.mul_cancel_r in Hn; [|apply P]. now rewrite Hn.
  - replace (lvl ne) with (S (lvl el)) in Hn by lia. rewrite Nat.pow_succ_r' in Hn. rewrite Nat.mul_assoc in Hn. apply Nat.mul_cancel_r in Hn; [|apply P].
    rewrite Hn, Nat.mul_comm, sum_pairs. apply ext. intros k Hk.
    replace (Nat.even (2 * k)) with true by (symmetry; now rewrite Nat.even_mul). replace (Nat.even (2 * k + 1)) with false by (symmetry; rewrite Nat.even_add, Nat.even_mul; reflexivity).
    replace (2 * k / 2) with k by (rewrite Nat.mul_comm; symmetry; now apply Nat.div_mul). replace ((2 * k + 1) / 2) with k by (apply Nat.div_unique with 1; lia). ring.
  - replace (lvl el) with (S (lvl ne)) in Hn by lia. rewrite Nat.pow_succ_r' in Hn. rewrite Nat.mul_assoc in Hn. apply Nat.mul_cancel_r in Hn; [|apply P].
    rewrite <- Hn, (Nat.mul_comm n), sum_pairs. reflexivity.
Qed.

Variable c : nat -> nat.
Variable Hc : synchronized U lvl c.

(** totals over the updates *)
Definition ownT (el fa : nat) : T := sum (c el) (fun k => own Q el fa k).
Definition ngbT (el fa : nat) : T := sum (c el) (fun k => ngb Q el fa k).
Definition cfun (a : nat -> T) (n : nat) (F : list T) (d : nat -> nat -> nat -> T) : T := sum nE (fun j => mul (a j) (faceInt A cf F (fun x y => sum n (fun k => d k x y)) j 0)).
Lemma cfun_sum a n F d : sum n (fun k => sum nE (fun j => mul (a j) (faceInt A cf F (d k) j 0))) = cfun a n F d.
Proof. unfold cfun. rewrite (sum_swap A). apply ext. intros j Hj. rewrite faceInt_sum. now rewrite (sum_mul A). Qed.
Lemma faceInt_ext F G t t' j : (forall x y, t x y = t' x y) -> (forall l, l < nMd -> ent A nMdFa F l 0 = ent A nMdFa G l 0) -> faceInt A cf F t j 0 = faceInt A cf G t' j 0.
Proof. intros H K. apply ext. intros l Hl. now rewrite H, K. Qed.

Lemma pair0 el fa ne v f : el < uN U -> fa < nFa -> mesh el fa = Inner ne v f -> add (ownT el fa) (ngbT ne f) = zero.
Proof.
  intros Hel Hfa Em. destruct (HS el fa ne v f Hel Hfa Em) as (Hne & Hf & _ & v' & Em'). destruct HC as (_ & _ & H3 & _ & H5).
  unfold ownT, ngbT, own, ngb. unfold isOut. rewrite Em'. rewrite !cfun_sum. unfold cfun. rewrite <- (sum_add A). apply (sum_0 A). intros j Hj.
  rewrite (faceInt_ext (projF U (matId cf mesh ne f)) (projF U fa) _ (fun x y => sum (c el) (fun k => full A cf U lvl dt Q el k x y))).
  - specialize (H5 el fa j Hel Hfa Hj). rewrite Em in H5.
    transitivity (mul (add (column A cf U w el fa (fs0 U el fa) j) (column A cf U w ne f (fs1 U ne f) j)) (faceInt A cf (projF U fa) (fun x y => sum (c el) (fun k => full A cf U lvl dt Q el k x y)) j 0)); [ring|].
    rewrite H5. ring.
  - intros x y. apply (data_sum ne f el v' fa); auto.
  - intros l Hl. unfold matId. rewrite Em'. apply (H3 ne f el v' fa l); auto.
Qed.
Lemma free0 el fa : el < uN U -> fa < nFa -> mesh el fa = Free -> add (ownT el fa) (ngbT el fa) = zero.
Proof.
  intros Hel Hfa Em. destruct HC as (_ & _ & _ & _ & H5). unfold ownT, ngbT, own, ngb. unfold isOut, matId, data. rewrite Em. rewrite !cfun_sum. unfold cfun. rewrite <- (sum_add A). apply (sum_0 A). intros j Hj.
  specialize (H5 el fa j Hel Hfa Hj). rewrite Em in H5.
  transitivity (mul (add (column A cf U w el fa (fs0 U el fa) j) (column A cf U w el fa (fs1 U el fa) j)) (faceInt A cf (projF U fa) (fun x y => sum (c el) (fun k => full A cf U lvl dt Q el k x y)) j 0)); [ring|].
  rewrite H5. ring.
Qed.
Lemma out0 el fa : isOut mesh el fa = true -> ngbT el fa = zero.
Proof. intros E. unfold ngbT. apply (sum_0 A). intros. unfold ngb. now rewrite E. Qed.

(** sums over lists; the faces behind *)
Fixpoint lsum {X} (l : list X) (f : X -> T) : T := match l with [] => zero | x :: l => add (f x) (lsum l f) end.
Lemma lsum_app {X} (l l' : list X) f : lsum (l ++ l') f = add (lsum l f) (lsum l' f).
Proof. induction l as [|x l IH]; cbn; [ring|]. rewrite IH. ring. Qed.
Lemma lsum_add {X} (l : list X) f g : lsum l (fun x => add (f x) (g x)) = add (lsum l f) (lsum l g).
Proof. induction l as [|x l IH]; cbn; [ring|]. rewrite IH. ring. Qed.
Lemma lsum_ext {X} (l : list X) f g : (forall x, In x l -> f x = g x) -> lsum l f = lsum l g.
Proof. induction l as [|x l IH]; cbn; intros H; [reflexivity|]. rewrite IH, H by auto. reflexivity. Qed.
Lemma lsum_perm {X} (l l' : list X) f : Permutation l l' -> lsum l f = lsum l' f.
Proof. induction 1; cbn [lsum]; [reflexivity|f_equal; assumption|ring|congruence]. Qed.
Lemma lsum_map {X Y} (l : list X) (g : X -> Y) f : lsum (map g l) f = lsum l (fun x => f (g x)).
Proof. induction l as [|x l IH]; cbn; [reflexivity|]. now rewrite IH. Qed.
Lemma lsum_seq n f : lsum (seq 0 n) f = sum n f.
Proof. induction n as [|n IH]; [reflexivity|]. rewrite seq_snoc, lsum_app, IH. cbn. ring. Qed.
Definition pairs : list (nat * nat) := list_prod (seq 0 (uN U)) (seq 0 nFa).
Lemma lsum_pairs f : lsum pairs f = sum (uN U) (fun el => sum nFa (fun fa => f (el, fa))).
Proof.
  unfold pairs. rewrite <- lsum_seq. generalize (seq 0 (uN U)) as l. induction l as [|el l IH]; [reflexivity|].
  cbn [list_prod]. rewrite lsum_app, IH, lsum_map, lsum_seq. reflexivity.
Qed.
Lemma in_pairs el fa : In (el, fa) pairs <-> el < uN U /\ fa < nFa.
Proof. unfold pairs. rewrite in_prod_iff, !in_seq. lia. Qed.
Definition behind (p : nat * nat) : nat * nat := match mesh (fst p) (snd p) with Inner ne _ f => (ne, f) | _ => p end.
Lemma behind_in p : In p pairs -> In (behind p) pairs.
Proof. destruct p as [el fa]. rewrite in_pairs. intros (H & H'). unfold behind. cbn [fst snd]. destruct (mesh el fa) as [| |ne v f] eqn:E; [now apply in_pairs|now apply in_pairs|]. destruct (HS el fa ne v f H H' E) as (X & Y & _). now apply in_pairs. Qed.
Lemma behind_behind p : In p pairs -> behind (behind p) = p.
Proof.
  destruct p as [el fa]. rewrite in_pairs. intros (H & H'). unfold behind at 2. cbn [fst snd]. destruct (mesh el fa) as [| |ne v f] eqn:E; try (unfold behind; cbn [fst snd]; now rewrite E).
  destruct (HS el fa ne v f H H' E) as (_ & _ & _ & v' & E'). unfold behind. cbn [fst snd]. now rewrite E'.
Qed.
Lemma NoDup_app_j {X} (l l' : list X) : NoDup l -> NoDup l' -> (forall x, In x l -> In x l' -> False) -> NoDup (l ++ l').
Proof.
  induction 1 as [|x l Hx N IH]; cbn; intros N' D; [exact N'|]. constructor.
  - rewrite in_app_iff. intros [H|H]; [auto|]. exact (D x (or_introl eq_refl) H).
  - apply IH; [exact N'|]. intros y Hy. apply D. now right.
Qed.
Lemma NoDup_map_j {X Y} (f : X -> Y) l : NoDup l -> (forall x y, In x l -> In y l -> f x = f y -> x = y) -> NoDup (map f l).
Proof.
  induction 1 as [|x l Hx N IH]; cbn; intros D; constructor.
  - intros Hin. apply in_map_iff in Hin. destruct Hin as (y & E & Hin). apply Hx. rewrite (D x y); auto.
  - apply IH. intros y z Hy Hz. apply D; now right.
Qed.
Lemma nodup_prod {X Y} (l : list X) (l' : list Y) : NoDup l -> NoDup l' -> NoDup (list_prod l l').
Proof.
  intros N N'. induction N as [|x l Hx N IH]; cbn; [constructor|]. apply NoDup_app_j; try exact IH.
  - clear - N'. induction N' as [|y l' Hy N' IH]; cbn; constructor; auto. intros Hin. apply in_map_iff in Hin. destruct Hin as (y' & E & Hin). injection E as ->. auto.
  - intros [a b] Ha Hb. apply in_map_iff in Ha. destruct Ha as (y & E & _). injection E as <- <-. apply in_prod_iff in Hb. tauto.
Qed.
Lemma behind_perm : Permutation (map behind pairs) pairs.
Proof.
  assert (ND : NoDup pairs) by (apply nodup_prod; apply seq_NoDup).
  apply NoDup_Permutation.
  - apply NoDup_map_j; [exact ND|]. intros p p' Hp Hp' E. rewrite <- (behind_behind p Hp), <- (behind_behind p' Hp'). now rewrite E.
  - exact ND.
  - intros p. split.
    + intros Hin. apply in_map_iff in Hin. destruct Hin as (p' & <- & Hin). now apply behind_in.
    + intros Hin. apply in_map_iff. exists (behind p). split; [now apply behind_behind|now apply behind_in].
Qed.

Lemma balance : total A cf U w (fun el => Q el (c el)) = add (total A cf U w q0) (outflowed A cf U mesh lvl dt w Q c).
Proof.
  unfold total. fold (wsum). rewrite (ext (uN U) _ (fun el => add (wsum el (fst (q0 el))) (sum nFa (fun fa => add (ownT el fa) (ngbT el fa))))).
  2: { intros el Hel. change (wsum el (fst (Q el (c el))) = add (wsum el (fst (q0 el))) (sum nFa (fun fa => add (ownT el fa) (ngbT el fa)))). rewrite (steps el (c el) Hel). f_equal.
       rewrite (sum_swap A). apply ext. intros fa Hfa. unfold ownT, ngbT. now rewrite <- (sum_add A). }
  rewrite (sum_add A). f_equal. unfold outflowed.
  transitivity (lsum pairs (fun p => add (ownT (fst p) (snd p)) (ngbT (fst p) (snd p)))); [now rewrite lsum_pairs|].
  transitivity (lsum pairs (fun p => if isOut mesh (fst p) (snd p) then ownT (fst p) (snd p) else zero)); [|now rewrite lsum_pairs].
  rewrite lsum_add. rewrite <- (lsum_perm _ _ (fun p => ngbT (fst p) (snd p)) behind_perm), lsum_map, <- lsum_add. apply lsum_ext. intros [el fa] Hin. apply in_pairs in Hin. destruct Hin as (Hel & Hfa).
  unfold behind. cbn [fst snd]. unfold isOut. destruct (mesh el fa) as [| |ne v f] eqn:E; cbn [fst snd].
  - rewrite out0 by (unfold isOut; now rewrite E). ring.
  - now apply free0.
  - now apply (pair0 el fa ne v f).
Qed.
End Cons.
