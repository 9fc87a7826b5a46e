(** Numbering of the modes. *)
From Coq Require Import List Arith Lia FinFun.
From Verif Require Import BasisSpec Basis.
Import ListNotations.
Local Open Scope nat_scope.

Lemma flat_map_const_length {A} (f : nat -> list A) L s k : (forall i, length (f i) = L) -> length (flat_map f (seq s k)) = k * L.
Proof. intros H. revert s. induction k as [|k IH]; intros s; [reflexivity|]. cbn [seq flat_map]. rewrite app_length, H, IH. reflexivity. Qed.
Lemma nth_flat_map {A} (f : nat -> list A) L s k b d : (forall i, length (f i) = L) -> b < k * L -> nth b (flat_map f (seq s k)) d = nth (b mod L) (f (s + b / L)) d.
Proof.
  intros H. revert s b. induction k as [|k IH]; intros s b Hb; [lia|]. assert (L0 : L <> 0) by (intros ->; lia). cbn [seq flat_map]. destruct (Nat.lt_ge_cases b L) as [C|C].
  - rewrite app_nth1 by (rewrite H; exact C). rewrite Nat.div_small, Nat.mod_small, Nat.add_0_r by exact C. reflexivity.
  - rewrite app_nth2 by (rewrite H; exact C). rewrite H, IH by lia. assert (E : b = (b - L) + 1 * L) by lia. assert (E1 : b / L = (b - L) / L + 1) by (rewrite E at 1; now apply Nat.div_add). assert (E2 : b mod L = (b - L) mod L) by (rewrite E at 1; now apply Nat.mod_add).
    rewrite E1, E2. replace (S s + (b - L) / L) with (s + ((b - L) / L + 1)) by lia. reflexivity.
Qed.
Lemma nth_map_seq {A} (f : nat -> A) n b d : b < n -> nth b (map f (seq 0 n)) d = f b.
Proof. intros H. rewrite (nth_indep _ d (f 0)) by (rewrite map_length, seq_length; exact H). rewrite map_nth, seq_nth by exact H. reflexivity. Qed.
Lemma modeAt_line n b : b < n -> modeAt Line n b = (b, 0, 0).
Proof. intros H. unfold modeAt, modes. rewrite (nth_flat_map _ 1) by (intros; cbn; lia). rewrite Nat.mod_1_r, Nat.div_1_r. reflexivity. Qed.
Lemma modeAt_quad n b : b < n * n -> modeAt Quad n b = (b mod n, b / n, 0).
Proof.
  intros H. assert (n <> 0) by (intros ->; lia). unfold modeAt, modes. rewrite (nth_flat_map _ n) by (intros; cbn; rewrite ?map_length, ?seq_length; lia).
  cbn [level]. rewrite (nth_map_seq (fun p => (p, 0 + b / n, 0))) by (apply Nat.mod_upper_bound; assumption). reflexivity.
Qed.
Lemma modeAt_hex n b : b < n * n * n -> modeAt Hex n b = (b mod n, (b mod (n * n)) / n, b / (n * n)).
Proof.
  intros H. assert (N : n <> 0) by (intros ->; lia). unfold modeAt, modes.
  assert (L : forall i, length (level Hex n i) = n * n) by (intros i; cbn [level]; rewrite (flat_map_const_length _ n); [reflexivity|]; intros; rewrite map_length, seq_length; reflexivity).
  rewrite (nth_flat_map _ (n * n)) by (auto; lia). cbn [level]. assert (M : b mod (n * n) < n * n) by (apply Nat.mod_upper_bound; nia).
  rewrite (nth_flat_map _ n) by (auto; intros; rewrite map_length, seq_length; reflexivity).
  rewrite (nth_map_seq (fun p => (p, 0 + b mod (n * n) / n, 0 + b / (n * n)))) by (apply Nat.mod_upper_bound; exact N).
  assert (E : (b mod (n * n)) mod n = b mod n). { rewrite Nat.mod_mul_r, Nat.add_comm, (Nat.mul_comm n ((b / n) mod n)), Nat.add_comm, Nat.mod_add, Nat.mod_mod by exact N. reflexivity. }
  rewrite E. reflexivity.
Qed.

(** hierarchical bases *)
Definition hier (el : refEl) : Prop := match el with Quad | Hex => False | _ => True end.
Lemma level_any el n k de : hier el -> level el n de = level el k de. Proof. destruct el; cbn; tauto. Qed.
Lemma modes_prefix el k n : hier el -> k <= n -> modes el n = modes el k ++ flat_map (level el n) (seq k (n - k)).
Proof.
  intros H Hk. unfold modes. replace n with (k + (n - k)) at 2 by lia. rewrite seq_app, flat_map_app. f_equal. apply flat_map_ext. intros a. now apply level_any.
Qed.
Lemma level_deg el n de m : hier el -> In m (level el n de) -> deg m = de.
Proof.
  destruct el; cbn [hier level]; intros H I; try contradiction.
  - destruct I as [<-|[]]. cbn. lia.
  - apply in_map_iff in I as (p & <- & I). apply in_seq in I. cbn. lia.
  - apply in_flat_map in I as (p & I1 & I2). apply in_map_iff in I2 as (q & <- & I). apply in_seq in I, I1. cbn. lia.
Qed.
Lemma modes_deg el n m : hier el -> In m (modes el n) -> deg m < n.
Proof. intros H I. apply in_flat_map in I as (de & I1 & I2). apply in_seq in I1. rewrite (level_deg el n de m H I2). lia. Qed.
Lemma length_flat_sum {A} (f : nat -> list A) (g : nat -> nat) n : (forall i, length (f i) = g i) -> length (flat_map f (seq 0 n)) = list_sum (map g (seq 0 n)).
Proof.
  intros H. assert (G : forall s, length (flat_map f (seq s n)) = list_sum (map g (seq s n))); [|apply G]. induction n as [|n IH]; intros s; [reflexivity|].
  cbn [seq flat_map map list_sum]. rewrite app_length, H, IH. reflexivity.
Qed.
Lemma list_sum_S g n : list_sum (map g (seq 0 (S n))) = list_sum (map g (seq 0 n)) + g n.
Proof. rewrite seq_S, map_app, list_sum_app. cbn. lia. Qed.
Lemma tri_level de : length (level Tria 0 de) = S de. Proof. cbn [level]. rewrite map_length, seq_length. reflexivity. Qed.
Lemma tet_level_aux de k : k <= S de -> 2 * length (flat_map (fun p => map (fun q => (p, q, de - p - q)) (seq 0 (S (de - p)))) (seq 0 k)) = k * (2 * de + 3 - k).
Proof.
  induction k as [|k IH]; intros H; [reflexivity|]. rewrite seq_S, flat_map_app, app_length, Nat.mul_add_distr_l, IH by lia. cbn [flat_map Nat.add]. rewrite app_nil_r, map_length, seq_length.
  replace (2 * de + 3 - k) with (S (2 * (de - k) + k + 2)) by lia. replace (2 * de + 3 - S k) with (2 * (de - k) + k + 2) by lia. nia.
Qed.
Lemma length_modes el n : length (modes el n) = nMds el n.
Proof.
  destruct el; unfold modes, nMds.
  - rewrite (flat_map_const_length _ 1); [lia|reflexivity].
  - rewrite (flat_map_const_length _ n); [reflexivity|]. intros; cbn. now rewrite map_length, seq_length.
  - rewrite (length_flat_sum _ S); [|intros i; cbn [level]; now rewrite map_length, seq_length].
    apply (Nat.div_unique _ _ _ 0); [lia|]. rewrite Nat.add_0_r. induction n as [|n IH]; [reflexivity|]. rewrite list_sum_S, Nat.mul_add_distr_l, <- IH. lia.
  - rewrite (flat_map_const_length _ (n * n)); [lia|]. intros; cbn [level]. rewrite (flat_map_const_length _ n); [reflexivity|]. intros. now rewrite map_length, seq_length.
  - apply (Nat.div_unique _ _ _ 0); [lia|]. rewrite Nat.add_0_r. induction n as [|n IH]; [reflexivity|].
    rewrite seq_S, flat_map_app, app_length.
    replace (length (flat_map (level Tet (S n)) (seq 0 n))) with (length (flat_map (level Tet n) (seq 0 n))) by (f_equal; apply flat_map_ext; intros; now apply level_any).
    set (l0 := length (flat_map (level Tet n) (seq 0 n))) in *. cbn [flat_map]. rewrite app_nil_r. pose proof (tet_level_aux n (S n) (le_n _)) as X.
    change (2 * length (level Tet (S n) (0 + n)) = S n * (2 * n + 3 - S n)) in X. set (l := length (level Tet (S n) (0 + n))) in *. replace (2 * n + 3 - S n) with (n + 2) in X by lia. nia.
Qed.
Lemma modeAt_in el n b : b < nMds el n -> In (modeAt el n b) (modes el n).
Proof. intros H. apply nth_In. rewrite length_modes. exact H. Qed.
Lemma modeAt_deg el n b : hier el -> b < nMds el n -> deg (modeAt el n b) < n.
Proof. intros H Hb. apply (modes_deg el n _ H), modeAt_in, Hb. Qed.
Lemma nMds_le el k n : hier el -> k <= n -> nMds el k <= nMds el n.
Proof. intros H Hk. rewrite <- !length_modes, (modes_prefix el k n H Hk), app_length. lia. Qed.
Lemma modeAt_any el k n b : hier el -> k <= n -> b < nMds el k -> modeAt el n b = modeAt el k b.
Proof. intros H Hk Hb. unfold modeAt. rewrite (modes_prefix el k n H Hk), app_nth1; [reflexivity|]. rewrite length_modes. exact Hb. Qed.
Lemma modeAt_deg_ge el k n b : hier el -> k <= n -> nMds el k <= b < nMds el n -> k <= deg (modeAt el n b).
Proof.
  intros H Hk Hb. unfold modeAt. rewrite (modes_prefix el k n H Hk). rewrite app_nth2 by (rewrite length_modes; lia). rewrite length_modes.
  assert (I : In (nth (b - nMds el k) (flat_map (level el n) (seq k (n - k))) (0, 0, 0)) (flat_map (level el n) (seq k (n - k)))).
  { apply nth_In. assert (length (modes el n) = nMds el n) by apply length_modes. rewrite (modes_prefix el k n H Hk), app_length, length_modes in H0. lia. }
  apply in_flat_map in I as (de & I1 & I2). apply in_seq in I1. rewrite (level_deg el n de _ H I2). lia.
Qed.
(** different numbers, different modes *)
Lemma NoDup_flat {A} (f : nat -> list A) s k : (forall i, NoDup (f i)) -> (forall i j a, In a (f i) -> In a (f j) -> i = j) -> NoDup (flat_map f (seq s k)).
Proof.
  intros H1 H2. revert s. induction k as [|k IH]; intros s; [constructor|]. cbn [seq flat_map].
  assert (D : forall a, In a (f s) -> ~ In a (flat_map f (seq (S s) k))). { intros a I J. apply in_flat_map in J as (j & J1 & J2). apply in_seq in J1. specialize (H2 s j a I J2). lia. }
  revert D. generalize (H1 s). generalize (f s). intros l N D. induction N as [|a l Na N IHN]; [apply IH|]. cbn [app]. constructor.
  - rewrite in_app_iff. intros [|J]; [contradiction|]. now apply (D a (or_introl eq_refl)).
  - apply IHN. intros b I. apply D. now right.
Qed.
Lemma NoDup_map_seq {A} (f : nat -> A) n : (forall i j, f i = f j -> i = j) -> NoDup (map f (seq 0 n)).
Proof. intros H. apply Injective_map_NoDup; [exact H|apply seq_NoDup]. Qed.
Lemma modes_NoDup el n : NoDup (modes el n).
Proof.
  unfold modes. apply NoDup_flat.
  - intros i. destruct el; cbn [level].
    + constructor; [intros []|constructor].
    + apply NoDup_map_seq. congruence.
    + apply NoDup_map_seq. congruence.
    + apply NoDup_flat; [intros; apply NoDup_map_seq; congruence|]. intros a b m I J. apply in_map_iff in I as (? & E1 & _), J as (? & E2 & _). congruence.
    + apply NoDup_flat; [intros; apply NoDup_map_seq; congruence|]. intros a b m I J. apply in_map_iff in I as (? & E1 & _), J as (? & E2 & _). congruence.
  - intros i j m I J. destruct (match el return {hier el} + {~ hier el} with Line => left Logic.I | Tria => left Logic.I | Tet => left Logic.I | _ => right (fun x => x) end) as [H|H].
    + rewrite <- (level_deg el n i m H I). now apply (level_deg el n j m H).
    + destruct el; cbn [hier] in H; try tauto; cbn [level] in *.
      * apply in_map_iff in I as (? & E1 & _), J as (? & E2 & _). congruence.
      * apply in_flat_map in I as (? & _ & I), J as (? & _ & J). apply in_map_iff in I as (? & E1 & _), J as (? & E2 & _). congruence.
Qed.
Lemma modeAt_inj el n a b : a < nMds el n -> b < nMds el n -> modeAt el n a = modeAt el n b -> a = b.
Proof. intros Ha Hb E. apply (proj1 (NoDup_nth (modes el n) (0, 0, 0)) (modes_NoDup el n)); rewrite ?length_modes; assumption. Qed.
