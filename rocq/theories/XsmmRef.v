(** A library which has the properties assumed of LIBXSMM: all entries of the result are computed one by one.  Used for the examples only. *)
From Coq Require Import Ring.
From Verif Require Import Util MeshConn MatMul Props_Mat MatSparse MmXsmm Ader AderSpec AderV XsmmSpec.

Section Ref.
Context {T : Type}.
Variable A : alg T.
Local Notation zero := (aZero A).
Local Notation add := (aAdd A).
Local Notation mul := (aMul A).
Local Notation sum := (sum A).

(** [weak]: parts of C without contribution are left alone *)
Variable weak : bool.

Definition refGemm (d : gdesc) (a b c : list T) : res (list T) := Ok (map (fun p =>
  let j := p / gLdC d in let i := p mod gLdC d in
  if (i <? gM d) && (j <? gN d) then add (kept A d (nth p c zero)) (sum (gK d) (fun l => mul (nth (l * gLdA d + i) a zero) (nth (j * gLdB d + l) b zero)))
  else nth p c zero) (seq 0 (length c))).
Definition refPacked (d : gdesc) (r : nat) (empty : nat -> nat -> bool) (v : nat -> nat -> nat -> T) (c : list T) : res (list T) := Ok (map (fun p =>
  let z := p mod r in let y := (p / r) mod gLdC d in let x := p / r / gLdC d in
  if (x <? gM d) && (y <? gN d) && (z <? r) then if weak && empty x y then nth p c zero else add (kept A d (nth p c zero)) (v x y z)
  else nth p c zero) (seq 0 (length c))).
Definition refLib : xsmm T := {|
  xGemm := refGemm;
  xCsr := fun d r ptr idx a b c => refPacked d r (fun x _ => nth x ptr 0 =? nth (S x) ptr 0)
    (fun x y z => sum (gK d) (fun l => mul (spv A ptr idx a x l) (nth (pos r (gLdB d) l y z) b zero))) c;
  xCsc := fun d r ptr idx a b c => refPacked d r (fun _ y => nth y ptr 0 =? nth (S y) ptr 0)
    (fun x y z => sum (gK d) (fun l => mul (nth (pos r (gLdA d) x l z) a zero) (spv A ptr idx b y l))) c |}.

Lemma nth_mapseq (f : nat -> T) n p : p < n -> nth p (map f (seq 0 n)) zero = f p.
Proof. intros H. rewrite (nth_indep _ zero (f 0)) by (rewrite map_length, seq_length; lia). rewrite map_nth, seq_nth by lia. reflexivity. Qed.

Lemma unpos r ld x y z : y < ld -> z < r -> let p := pos r ld x y z in p mod r = z /\ (p / r) mod ld = y /\ p / r / ld = x.
Proof.
  intros Hy Hz p. assert (P : p = r * (ld * x + y) + z) by (unfold p, pos; nia).
  assert (M : p mod r = z) by (symmetry; apply (Nat.mod_unique p r (ld * x + y) z); auto).
  assert (D : p / r = ld * x + y) by (symmetry; apply (Nat.div_unique p r (ld * x + y) z); auto).
  rewrite D. split; [auto|]. split; [symmetry; apply (Nat.mod_unique _ ld x y); auto|symmetry; apply (Nat.div_unique _ ld x y); auto].
Qed.

Lemma refPacked_ok d r empty v c (ne : nat -> nat -> Prop) : gN d <= gLdC d -> covers r (gM d) (gN d) (gLdC d) c -> (forall x y, empty x y = true -> ne x y) ->
  exists c', refPacked d r empty v c = Ok c' /\ length c' = length c /\
    (forall x y z, x < gM d -> y < gN d -> z < r ->
      let o := nth (pos r (gLdC d) x y z) c zero in let w := nth (pos r (gLdC d) x y z) c' zero in w = add (kept A d o) (v x y z) \/ ne x y /\ w = o) /\
    (forall p, (forall x y z, x < gM d -> y < gN d -> z < r -> p <> pos r (gLdC d) x y z) -> nth p c' zero = nth p c zero).
Proof.
  intros Hn Hc He. eexists. split; [reflexivity|]. split; [now rewrite map_length, seq_length|]. split.
  - intros x y z Hx Hy Hz o w. unfold w. rewrite nth_mapseq by (apply Hc; auto).
    destruct (unpos r (gLdC d) x y z ltac:(lia) Hz) as (-> & -> & ->). rewrite (proj2 (Nat.ltb_lt _ _) Hx), (proj2 (Nat.ltb_lt _ _) Hy), (proj2 (Nat.ltb_lt _ _) Hz). cbn [andb].
    destruct (weak && empty x y) eqn:E; [right|left; reflexivity]. apply andb_true_iff in E. split; [apply He; apply E|reflexivity].
  - intros p Hp. destruct (Nat.lt_ge_cases p (length c)) as [L|L]; [|rewrite !nth_overflow by (rewrite ?map_length, ?seq_length; lia); reflexivity].
    rewrite nth_mapseq by auto. cbv zeta.
    destruct (Nat.ltb_spec (p / r / gLdC d) (gM d)) as [X|X]; [|reflexivity]. destruct (Nat.ltb_spec ((p / r) mod gLdC d) (gN d)) as [Y|Y]; [|reflexivity].
    destruct (Nat.ltb_spec (p mod r) r) as [Z|Z]; [|reflexivity]. cbn [andb]. exfalso. apply (Hp _ _ _ X Y Z). unfold pos.
    assert (R0 : r <> 0) by (intros ->; inversion Z). assert (C0 : gLdC d <> 0) by (intros E; rewrite E in Hn; assert (N0 : gN d = 0) by lia; rewrite N0 in Y; inversion Y).
    assert (D := Nat.div_mod p r R0). assert (D' := Nat.div_mod (p / r) (gLdC d) C0). rewrite D at 1. rewrite D' at 1. ring.
Qed.

Lemma refLib_ok : xsmmSpec A refLib.
Proof.
  split; [|split].
  - intros d a b c Hm Ha Hb Hc. eexists. split; [reflexivity|]. split; [now rewrite map_length, seq_length|]. split.
    + intros i j Hi Hj. rewrite nth_mapseq by (apply Hc; auto).
      assert (Hj' : (j * gLdC d + i) / gLdC d = j) by (symmetry; apply (Nat.div_unique _ (gLdC d) j i); lia).
      assert (Hi' : (j * gLdC d + i) mod gLdC d = i) by (symmetry; apply (Nat.mod_unique _ (gLdC d) j i); lia).
      cbv zeta. rewrite Hi', Hj', (proj2 (Nat.ltb_lt _ _) Hi), (proj2 (Nat.ltb_lt _ _) Hj). reflexivity.
    + intros p Hp. destruct (Nat.lt_ge_cases p (length c)) as [L|L]; [|rewrite !nth_overflow by (rewrite ?map_length, ?seq_length; lia); reflexivity].
      rewrite nth_mapseq by auto. cbv zeta.
      destruct (Nat.ltb_spec (p mod gLdC d) (gM d)) as [X|X]; [|reflexivity]. destruct (Nat.ltb_spec (p / gLdC d) (gN d)) as [Y|Y]; [|reflexivity].
      exfalso. apply (Hp _ _ X Y). assert (C0 : gLdC d <> 0) by (intros E; rewrite E in Hm; assert (N0 : gM d = 0) by lia; rewrite N0 in X; inversion X).
      rewrite (Nat.div_mod p (gLdC d) C0) at 1. ring.
  - intros d r ptr idx a b c _ Hn _ Hc. cbn [xCsr refLib]. apply (refPacked_ok d r _ _ c (fun x _ => noEntry ptr x)); auto. intros x y E. apply Nat.eqb_eq in E. exact E.
  - intros d r ptr idx a b c _ Hn _ Hc. cbn [xCsc refLib]. apply (refPacked_ok d r _ _ c (fun _ y => noEntry ptr y)); auto. intros x y E. apply Nat.eqb_eq in E. exact E.
Qed.

(** a library whose kernels with compressed rows visit the entries of the pattern and do not use the number of rows of B *)
Definition refLibR : xsmm T := {|
  xGemm := refGemm;
  xCsr := fun d r ptr idx a b c => refPacked d r (fun x _ => nth x ptr 0 =? nth (S x) ptr 0)
    (fun x y z => sum (nth (S x) ptr 0 - nth x ptr 0) (fun p => mul (nth (nth x ptr 0 + p) a zero) (nth (pos r (gLdB d) (nth (nth x ptr 0 + p) idx 0) y z) b zero))) c;
  xCsc := xCsc refLib |}.
Add Ring TRx : (aRT A).
Lemma sum_one k i v (f : nat -> T) : i < k -> sum k (fun l => mul (if i =? l then v else zero) (f l)) = mul v (f i).
Proof.
  induction k as [|k IH]; intros Hi; [lia|]. cbn [AderSpec.sum]. destruct (Nat.eqb_spec i k) as [->|N].
  - rewrite (sum_0 A k); [ring|]. intros l Hl. destruct (Nat.eqb_spec k l); [lia|]. ring.
  - rewrite IH by lia. ring.
Qed.
Lemma row_entries ptr idx a x k (f : nat -> T) : (forall p, nth x ptr 0 <= p < nth (S x) ptr 0 -> nth p idx 0 < k) ->
  sum (nth (S x) ptr 0 - nth x ptr 0) (fun p => mul (nth (nth x ptr 0 + p) a zero) (f (nth (nth x ptr 0 + p) idx 0))) = sum k (fun l => mul (spv A ptr idx a x l) (f l)).
Proof.
  intros H. unfold spv. assert (G : forall n, n <= nth (S x) ptr 0 - nth x ptr 0 -> sum n (fun p => mul (nth (nth x ptr 0 + p) a zero) (f (nth (nth x ptr 0 + p) idx 0))) =
    sum k (fun l => mul (sum n (fun p => if nth (nth x ptr 0 + p) idx 0 =? l then nth (nth x ptr 0 + p) a zero else zero)) (f l))); [|apply G; auto].
  induction n as [|n IH]; intros Hn; cbn [AderSpec.sum].
  - symmetry. apply (sum_0 A). intros. ring.
  - rewrite IH by lia. rewrite <- (sum_one k (nth (nth x ptr 0 + n) idx 0) (nth (nth x ptr 0 + n) a zero) f) by (apply H; lia). rewrite <- (sum_add A). apply (sum_ext A). intros. ring.
Qed.
Lemma ptrs_le (ptr : list nat) n : (forall i, i < n -> nth i ptr 0 <= nth (S i) ptr 0) -> forall i, i <= n -> nth i ptr 0 <= nth n ptr 0.
Proof. intros H. induction n as [|n IH]; intros i Hi; [assert (i = 0) by lia; subst; lia|]. destruct (Nat.eq_dec i (S n)) as [->|]; [lia|]. etransitivity; [apply IH; [intros; apply H; lia|lia]|apply H; lia]. Qed.
Lemma refLibR_ok : xsmmSpec A refLibR.
Proof.
  split; [|split].
  - exact (proj1 refLib_ok).
  - intros d r ptr idx a b c (P1 & P2 & P3 & P4 & P5) Hn _ Hc. cbn [xCsr refLibR].
    destruct (refPacked_ok d r (fun x _ => nth x ptr 0 =? nth (S x) ptr 0)
      (fun x y z => sum (nth (S x) ptr 0 - nth x ptr 0) (fun p => mul (nth (nth x ptr 0 + p) a zero) (nth (pos r (gLdB d) (nth (nth x ptr 0 + p) idx 0) y z) b zero))) c (fun x _ => noEntry ptr x)) as (c' & E & L' & V & U); auto.
    { intros x y E. apply Nat.eqb_eq in E. exact E. }
    exists c'. split; [exact E|]. split; [auto|]. split; [|exact U]. intros x y z Hx Hy Hz. destruct (V x y z Hx Hy Hz) as [W|W]; [|right; exact W]. left. rewrite W. f_equal.
    apply (row_entries ptr idx a x (gK d) (fun l => nth (pos r (gLdB d) l y z) b zero)). intros p Hp. apply P5.
    assert (M := ptrs_le ptr (gM d) P2).
    specialize (M (S x) Hx). lia.
  - exact (proj2 (proj2 refLib_ok)).
Qed.
End Ref.
