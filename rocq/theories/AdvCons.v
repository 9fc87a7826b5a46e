(** Proof of the balance, see AderCons. *)
From Coq Require Import Ring Permutation.
From Verif Require Import Util MeshConn MatMul Props_Mat Sparse Lts Ader AderSpec AderV Props_Ader AdvK AdvKSpec AdvKV AderElSpec AderLtsSpec AdvLtsSpec AdvConsSpec.
Local Open Scope nat_scope.

Section Cons.
Context {T : Type}.
Variables (A : alg T) (cf : conf) (S_ : @advS T) (n_ : nat).
Variables (mesh : nat -> nat -> nbr) (lvl : nat -> nat) (dt hdt : nat -> nat -> T).
Local Notation zero := (aZero A).
Local Notation add := (aAdd A).
Local Notation sub := (aSub A).
Local Notation mul := (aMul A).
Local Notation opp := (aOpp A).
Local Notation sum := (AderSpec.sum A).
Add Ring TRC : (aRT A).
Local Notation nMd := (nModes (cEl cf) (cSp cf)).
Local Notation nMdFa := (nModesFa (cEl cf) (cSp cf)).
Local Notation nFa := (nElFas (cEl cf)).
Local Notation nDi := (nDis (cEl cf)).
Local Opaque nModes nModesCk nQtsE nQtsM nDis nModesFa nElFas.
Variable w : nat -> T.
Variables (Hmode : 0 < nMd) (HmodeFa : 0 < nMdFa).
Variable HC : constant0 A cf S_ n_ mesh.
Variable HF : fluxCons A cf S_ n_ mesh w.
Variable HS : meshSymA cf n_ mesh lvl.
Local Notation ext := (sum_ext A).
Local Notation LN i := (nth i (gLN S_) []).
Local Notation FT fa := (nth fa (gFT S_) []).
Local Notation own0 := (fsOwn A S_).
Local Notation ngb0 := (fsNeigh A cf S_).
Local Notation fl := (fullA A cf S_ lvl dt).
Local Notation dat := (dataA A cf S_ mesh lvl dt hdt).

Lemma vol0 el t : opS A cf (volK A cf (gSt S_)) (starOf S_ el) t 0 = zero.
Proof.
  destruct HC as (H1 & _). unfold opS. apply (sum_0 A). intros di Hdi. rewrite (sum_0 A nMd); [ring|]. intros l Hl. unfold volK. rewrite (H1 di l Hdi Hl). ring.
Qed.
(** contribution of a face *)
Definition c0 (fa : nat) : T := ent A nMd (FT fa) 0 0.
Lemma surf0 f F fa t : fa < nFa -> surfS A cf f F (FT fa) t 0 = mul (mul f (faceS A cf F t 0)) (c0 fa).
Proof.
  intros Hfa. destruct HC as (_ & H2 & _). unfold surfS. rewrite (sum_le A 1 nMdFa); [cbn [AderSpec.sum]; unfold c0; ring|lia|]. intros m Hm. rewrite (H2 fa m Hfa ltac:(lia)). ring.
Qed.
Lemma face_sum F n f m : faceS A cf F (fun y => sum n (fun i => f i y)) m = sum n (fun i => faceS A cf F (f i) m).
Proof.
  unfold faceS. rewrite <- (sum_swap A). apply ext. intros l Hl.
  transitivity (mul (ent A nMdFa F l m) (sum n (fun i => f i l))); [ring|]. rewrite <- (sum_mul A). apply ext. intros. ring.
Qed.
Lemma face_ext F G t t' : (forall y, t y = t' y) -> (forall l, l < nMd -> ent A nMdFa F l 0 = ent A nMdFa G l 0) -> faceS A cf F t 0 = faceS A cf G t' 0.
Proof. intros H K. apply ext. intros l Hl. now rewrite H, K. Qed.

Variable q0 : nat -> nat -> T.
Variable Q : nat -> nat -> nat -> T.
Variable HQ : schemeA A cf S_ n_ mesh lvl dt hdt q0 Q.

(** the change of an element by its updates, face by face *)
Definition own (el fa k : nat) : T := mul (w el) (surfS A cf (own0 el fa) (LN fa) (FT fa) (fl Q el k) 0).
Definition ngb (el fa k : nat) : T := mul (w el) (surfS A cf (ngb0 el fa) (LN (matA cf mesh el fa)) (FT fa) (dat Q el fa k) 0).

Lemma step el k : el < n_ -> mul (w el) (Q el (S k) 0) = add (mul (w el) (Q el k 0)) (sum nFa (fun fa => add (own el fa k) (ngb el fa k))).
Proof.
  intros Hel. destruct (HQ el Hel) as (_ & St). rewrite (St k 0). unfold updateA, ownA, neighT. rewrite vol0. rewrite (sum_add A). unfold own, ngb. rewrite !(sum_mul A). ring.
Qed.
Lemma steps el n : el < n_ -> mul (w el) (Q el n 0) = add (mul (w el) (q0 el 0)) (sum n (fun k => sum nFa (fun fa => add (own el fa k) (ngb el fa k)))).
Proof.
  intros Hel. induction n as [|n IH]; cbn [AderSpec.sum].
  - rewrite (proj1 (HQ el Hel) 0). ring.
  - rewrite step, IH by exact Hel. ring.
Qed.

(** the data of the neighbour over the same time is the sum of the neighbour's integrals *)
Lemma sum_pairs n f : sum (2 * n) f = sum n (fun k => add (f (2 * k)) (f (2 * k + 1))).
Proof.
  induction n as [|n IH]; [reflexivity|]. replace (2 * S n) with (S (S (2 * n))) by lia. cbn [AderSpec.sum]. rewrite IH. replace (2 * n + 1) with (S (2 * n)) by lia. ring.
Qed.
Lemma data_sum el fa ne v f n n' y : el < n_ -> fa < nFa -> mesh el fa = Next ne v f -> n * 2 ^ lvl el = n' * 2 ^ lvl ne ->
  sum n (fun k => dat Q el fa k y) = sum n' (fun k => fl Q ne k y).
Proof.
  intros Hel Hfa Em Hn. destruct (HS el fa ne v f Hel Hfa Em) as (_ & _ & (L1 & L2) & _). unfold dataA. rewrite Em.
  assert (P : forall k, 2 ^ k <> 0) by (intros; now apply Nat.pow_nonzero).
  destruct (Nat.compare_spec (lvl el) (lvl ne)) as [E|E|E].
  - rewrite E in Hn. apply Nat.mul_cancel_r in Hn; [|apply P]. now rewrite Hn.
  - replace (lvl ne) with (S (lvl el)) in Hn by lia. rewrite Nat.pow_succ_r' in Hn. rewrite Nat.mul_assoc in Hn. apply Nat.mul_cancel_r in Hn; [|apply P].
    rewrite Hn, Nat.mul_comm, sum_pairs. apply ext. intros k Hk.
    replace (Nat.even (2 * k)) with true by (symmetry; now rewrite Nat.even_mul). replace (Nat.even (2 * k + 1)) with false by (symmetry; rewrite Nat.even_add, Nat.even_mul; reflexivity).
    replace (2 * k / 2) with k by (rewrite Nat.mul_comm; symmetry; now apply Nat.div_mul). replace ((2 * k + 1) / 2) with k by (apply Nat.div_unique with 1; lia). ring.
  - replace (lvl el) with (S (lvl ne)) in Hn by lia. rewrite Nat.pow_succ_r' in Hn. rewrite Nat.mul_assoc in Hn. apply Nat.mul_cancel_r in Hn; [|apply P].
    rewrite <- Hn, (Nat.mul_comm n), sum_pairs. reflexivity.
Qed.

Variable c : nat -> nat.
Variable Hc : synchronizedA n_ lvl c.

(** totals over the updates *)
Definition ownT (el fa : nat) : T := sum (c el) (fun k => own el fa k).
Definition ngbT (el fa : nat) : T := sum (c el) (fun k => ngb el fa k).
Lemma surf_sum x f F fa n d : fa < nFa -> sum n (fun k => mul x (surfS A cf f F (FT fa) (d k) 0)) = mul (mul (mul x f) (c0 fa)) (faceS A cf F (fun y => sum n (fun k => d k y)) 0).
Proof. intros Hfa. rewrite face_sum, <- (sum_mul A). apply ext. intros k _. rewrite (surf0 _ _ _ _ Hfa). ring. Qed.

Lemma pair0 el fa ne v f : el < n_ -> fa < nFa -> mesh el fa = Next ne v f -> add (ownT el fa) (ngbT ne f) = zero.
Proof.
  intros Hel Hfa Em. destruct (HS el fa ne v f Hel Hfa Em) as (Hne & Hf & _ & v' & Em'). destruct HC as (_ & _ & H3 & H4).
  unfold ownT, ngbT, own, ngb. rewrite (surf_sum _ _ _ fa) by exact Hfa. rewrite (surf_sum _ _ _ f) by exact Hf. unfold matA. rewrite Em'.
  rewrite (face_ext (LN (nFa + (v' * nFa + fa))) (LN fa) _ (fun y => sum (c el) (fun k => fl Q el k y))).
  - unfold c0. rewrite (H3 f fa Hf Hfa). transitivity (mul (mul (add (mul (w el) (own0 el fa)) (mul (w ne) (ngb0 ne f))) (ent A nMd (FT fa) 0 0)) (faceS A cf (LN fa) (fun y => sum (c el) (fun k => fl Q el k y)) 0)); [ring|].
    rewrite (HF el fa ne v f Hel Hfa Em). ring.
  - intros y. apply (data_sum ne f el v' fa); auto.
  - intros l Hl. apply (H4 ne f el v' fa l); auto.
Qed.
Lemma outer0 el fa : el < n_ -> fa < nFa -> mesh el fa = Outer ->
  add (ownT el fa) (ngbT el fa) = mul (w el) (sum (c el) (fun k => surfS A cf (add (own0 el fa) (ngb0 el fa)) (LN fa) (FT fa) (fl Q el k) 0)).
Proof.
  intros Hel Hfa Em. unfold ownT, ngbT, own, ngb, matA, dataA. rewrite Em. rewrite <- (sum_add A), <- (sum_mul A). apply ext. intros k _. rewrite !surf0 by exact Hfa. ring.
Qed.

(** sums over lists; the faces behind *)
Fixpoint lsum {X} (l : list X) (f : X -> T) : T := match l with [] => zero | x :: l => add (f x) (lsum l f) end.
Lemma lsum_app {X} (l l' : list X) f : lsum (l ++ l') f = add (lsum l f) (lsum l' f).
Proof. induction l as [|x l IH]; cbn; [ring|]. rewrite IH. ring. Qed.
Lemma lsum_add {X} (l : list X) f g : lsum l (fun x => add (f x) (g x)) = add (lsum l f) (lsum l g).
Proof. induction l as [|x l IH]; cbn; [ring|]. rewrite IH. ring. Qed.
Lemma lsum_ext {X} (l : list X) f g : (forall x, In x l -> f x = g x) -> lsum l f = lsum l g.
Proof. induction l as [|x l IH]; cbn; intros H; [reflexivity|]. rewrite IH, H by auto. reflexivity. Qed.
Lemma lsum_perm {X} (l l' : list X) f : Permutation l l' -> lsum l f = lsum l' f.
Proof. induction 1; cbn [lsum]; [reflexivity|f_equal; assumption|ring|congruence]. Qed.
Lemma lsum_map {X Y} (l : list X) (g : X -> Y) f : lsum (map g l) f = lsum l (fun x => f (g x)).
Proof. induction l as [|x l IH]; cbn; [reflexivity|]. now rewrite IH. Qed.
Lemma lsum_seq n f : lsum (seq 0 n) f = sum n f.
Proof. induction n as [|n IH]; [reflexivity|]. rewrite seq_snoc, lsum_app, IH. cbn. ring. Qed.
Definition pairs : list (nat * nat) := list_prod (seq 0 (n_)) (seq 0 nFa).
Lemma lsum_pairs f : lsum pairs f = sum (n_) (fun el => sum nFa (fun fa => f (el, fa))).
Proof.
  unfold pairs. rewrite <- lsum_seq. generalize (seq 0 (n_)) as l. induction l as [|el l IH]; [reflexivity|].
  cbn [list_prod]. rewrite lsum_app, IH, lsum_map, lsum_seq. reflexivity.
Qed.
Lemma in_pairs el fa : In (el, fa) pairs <-> el < n_ /\ fa < nFa.
Proof. unfold pairs. rewrite in_prod_iff, !in_seq. lia. Qed.
Definition behind (p : nat * nat) : nat * nat := match mesh (fst p) (snd p) with Next ne _ f => (ne, f) | _ => p end.
Lemma behind_in p : In p pairs -> In (behind p) pairs.
Proof. destruct p as [el fa]. rewrite in_pairs. intros (H & H'). unfold behind. cbn [fst snd]. destruct (mesh el fa) as [|ne v f] eqn:E; [now apply in_pairs|]. destruct (HS el fa ne v f H H' E) as (X & Y & _). now apply in_pairs. Qed.
Lemma behind_behind p : In p pairs -> behind (behind p) = p.
Proof.
  destruct p as [el fa]. rewrite in_pairs. intros (H & H'). unfold behind at 2. cbn [fst snd]. destruct (mesh el fa) as [|ne v f] eqn:E; try (unfold behind; cbn [fst snd]; now rewrite E).
  destruct (HS el fa ne v f H H' E) as (_ & _ & _ & v' & E'). unfold behind. cbn [fst snd]. now rewrite E'.
Qed.
Lemma NoDup_app_j {X} (l l' : list X) : NoDup l -> NoDup l' -> (forall x, In x l -> In x l' -> False) -> NoDup (l ++ l').
Proof.
  induction 1 as [|x l Hx N IH]; cbn; intros N' D; [exact N'|]. constructor.
  - rewrite in_app_iff. intros [H|H]; [auto|]. exact (D x (or_introl eq_refl) H).
  - apply IH; [exact N'|]. intros y Hy. apply D. now right.
Qed.
Lemma NoDup_map_j {X Y} (f : X -> Y) l : NoDup l -> (forall x y, In x l -> In y l -> f x = f y -> x = y) -> NoDup (map f l).
Proof.
  induction 1 as [|x l Hx N IH]; cbn; intros D; constructor.
  - intros Hin. apply in_map_iff in Hin. destruct Hin as (y & E & Hin). apply Hx. rewrite (D x y); auto.
  - apply IH. intros y z Hy Hz. apply D; now right.
Qed.
Lemma nodup_prod {X Y} (l : list X) (l' : list Y) : NoDup l -> NoDup l' -> NoDup (list_prod l l').
Proof.
  intros N N'. induction N as [|x l Hx N IH]; cbn; [constructor|]. apply NoDup_app_j; try exact IH.
  - clear - N'. induction N' as [|y l' Hy N' IH]; cbn; constructor; auto. intros Hin. apply in_map_iff in Hin. destruct Hin as (y' & E & Hin). injection E as ->. auto.
  - intros [a b] Ha Hb. apply in_map_iff in Ha. destruct Ha as (y & E & _). injection E as <- <-. apply in_prod_iff in Hb. tauto.
Qed.
Lemma behind_perm : Permutation (map behind pairs) pairs.
Proof.
  assert (ND : NoDup pairs) by (apply nodup_prod; apply seq_NoDup).
  apply NoDup_Permutation.
  - apply NoDup_map_j; [exact ND|]. intros p p' Hp Hp' E. rewrite <- (behind_behind p Hp), <- (behind_behind p' Hp'). now rewrite E.
  - exact ND.
  - intros p. split.
    + intros Hin. apply in_map_iff in Hin. destruct Hin as (p' & <- & Hin). now apply behind_in.
    + intros Hin. apply in_map_iff. exists (behind p). split; [now apply behind_behind|now apply behind_in].
Qed.

Lemma balance : amount A n_ w (fun el => Q el (c el)) = add (amount A n_ w q0) (entered A cf S_ n_ mesh lvl dt w Q c).
Proof.
  unfold amount. rewrite (ext n_ _ (fun el => add (mul (w el) (q0 el 0)) (sum nFa (fun fa => add (ownT el fa) (ngbT el fa))))).
  2: { intros el Hel. rewrite (steps el (c el) Hel). f_equal. rewrite (sum_swap A). apply ext. intros fa Hfa. unfold ownT, ngbT. now rewrite <- (sum_add A). }
  rewrite (sum_add A). f_equal. unfold entered.
  transitivity (lsum pairs (fun p => add (ownT (fst p) (snd p)) (ngbT (fst p) (snd p)))); [now rewrite lsum_pairs|].
  transitivity (lsum pairs (fun p => match mesh (fst p) (snd p) with Outer => mul (w (fst p)) (sum (c (fst p)) (fun k => surfS A cf (add (own0 (fst p) (snd p)) (ngb0 (fst p) (snd p))) (LN (snd p)) (FT (snd p)) (fl Q (fst p) k) 0)) | Next _ _ _ => zero end)); [|now rewrite lsum_pairs].
  rewrite lsum_add. rewrite <- (lsum_perm _ _ (fun p => ngbT (fst p) (snd p)) behind_perm), lsum_map, <- lsum_add. apply lsum_ext. intros [el fa] Hin. apply in_pairs in Hin. destruct Hin as (Hel & Hfa).
  unfold behind. cbn [fst snd]. destruct (mesh el fa) as [|ne v f] eqn:E; cbn [fst snd].
  - now apply outer0.
  - now apply (pair0 el fa ne v f).
Qed.
End Cons.
