(** C46: f-wave solver, C57: conservation of water, C58: water at rest *)
From Coq Require Import List Arith Bool Lia Field QArith Qcanon.
From Verif Require Import Util Fwave.
Import ListNotations.
Open Scope nat_scope.

(** ** Exact arithmetic: ordered fields with decidable order *)
Record ofield {T : Type} (zero one half : T) (add sub mul div : T -> T -> T) (opp inv : T -> T) (ltb : T -> T -> bool) : Prop := {
  of_field : field_theory zero one add mul sub opp div inv eq;
  of_irr : forall a, ltb a a = false;
  of_trans : forall a b c, ltb a b = true -> ltb b c = true -> ltb a c = true;
  of_total : forall a b, ltb a b = false -> ltb b a = false -> a = b;
  of_add : forall a b c, ltb a b = true -> ltb (add a c) (add b c) = true;
  of_mul : forall a b, ltb zero a = true -> ltb zero b = true -> ltb zero (mul a b) = true;
  of_half : add half half = one
}.

Section Fw.
Context {T : Type}.
Variables (zero one half : T) (add sub mul div : T -> T -> T) (opp inv : T -> T) (ltb : T -> T -> bool).
Hypothesis OF : ofield zero one half add sub mul div opp inv ltb.
(** square root and gravity: only the positivity matters *)
Variables (sqrt : T -> T) (gDef : T).
Hypothesis SQ : forall x, ltb zero x = true -> ltb zero (sqrt x) = true.
Hypothesis GP : ltb zero gDef = true.
Variable nCr : nat.

Definition oft := of_field _ _ _ _ _ _ _ _ _ _ OF.
Add Field TF : oft.

Declare Scope t_scope.
Notation "0" := zero : t_scope.
Notation "1" := one : t_scope.
Infix "+" := add : t_scope.
Infix "-" := sub : t_scope.
Infix "*" := mul : t_scope.
Infix "/" := div : t_scope.
Notation "- x" := (opp x) : t_scope.
Notation "a < b" := (ltb a b = true) : t_scope.
Notation "a <= b" := (ltb b a = false) : t_scope.
Delimit Scope t_scope with t.

Notation get := (get zero).
Notation tab := (tab nCr).
Notation fw := (fwave zero one half add sub mul div opp sqrt ltb gDef nCr).

Lemma get_tab f cr : cr < nCr -> get (tab f) cr = f cr.
Proof. intros H. unfold Fwave.get, Fwave.tab. rewrite (nth_indep _ zero (f nCr)) by (rewrite map_length, seq_length; auto). rewrite map_nth, seq_nth by auto. reflexivity. Qed.

(** order *)
Lemma le_lt_trans a b c : (a <= b)%t -> (b < c)%t -> (a < c)%t.
Proof. intros H1 H2. destruct (ltb a b) eqn:E; [exact (of_trans _ _ _ _ _ _ _ _ _ _ OF _ _ _ E H2)|]. rewrite (of_total _ _ _ _ _ _ _ _ _ _ OF a b E H1). exact H2. Qed.
Lemma lt_le_trans a b c : (a < b)%t -> (b <= c)%t -> (a < c)%t.
Proof. intros H1 H2. destruct (ltb b c) eqn:E; [exact (of_trans _ _ _ _ _ _ _ _ _ _ OF _ _ _ H1 E)|]. rewrite <- (of_total _ _ _ _ _ _ _ _ _ _ OF b c E H2). exact H1. Qed.
Lemma lt_ne a b : (a < b)%t -> a <> b.
Proof. intros H ->. rewrite (of_irr _ _ _ _ _ _ _ _ _ _ OF) in H. discriminate. Qed.
Lemma lt_asym a b : (a < b)%t -> (a <= b)%t.
Proof. intros H. destruct (ltb b a) eqn:E; [|reflexivity]. assert (X := of_trans _ _ _ _ _ _ _ _ _ _ OF _ _ _ H E). rewrite (of_irr _ _ _ _ _ _ _ _ _ _ OF) in X. discriminate. Qed.
Lemma add_lt a b c : ltb (a + c)%t (b + c)%t = ltb a b.
Proof. destruct (ltb a b) eqn:E; [apply (of_add _ _ _ _ _ _ _ _ _ _ OF); auto|]. destruct (ltb (a + c)%t (b + c)%t) eqn:F; [|reflexivity].
  apply (of_add _ _ _ _ _ _ _ _ _ _ OF _ _ (- c)%t) in F. replace (a + c + - c)%t with a in F by ring. replace (b + c + - c)%t with b in F by ring. congruence. Qed.
Lemma opp_lt a b : ltb (- a)%t (- b)%t = ltb b a.
Proof. rewrite <- (add_lt (- a)%t (- b)%t (a + b)%t). f_equal; ring. Qed.
Lemma pos_ne a : (0 < a)%t -> a <> zero.
Proof. intros H ->. rewrite (of_irr _ _ _ _ _ _ _ _ _ _ OF) in H. discriminate. Qed.
Lemma pos_add a b : (0 < a)%t -> (0 < b)%t -> (0 < a + b)%t.
Proof. intros H1 H2. apply (of_trans _ _ _ _ _ _ _ _ _ _ OF _ b); auto. rewrite <- (add_lt zero a b) in H1. replace (0 + b)%t with b in H1 by ring. exact H1. Qed.
Lemma opp_pos a : ltb (- a)%t zero = ltb zero a.
Proof. rewrite <- opp_lt. f_equal; ring. Qed.
Lemma opp_neg a : ltb zero (- a)%t = ltb a zero.
Proof. rewrite <- opp_lt. f_equal; ring. Qed.
Lemma min_le a b : (fmin ltb a b <= b)%t.
Proof. unfold fmin. destruct (ltb b a) eqn:E; [apply (of_irr _ _ _ _ _ _ _ _ _ _ OF)|exact E]. Qed.
Lemma max_le a b : (b <= fmax ltb a b)%t.
Proof. unfold fmax. destruct (ltb a b) eqn:E; [apply (of_irr _ _ _ _ _ _ _ _ _ _ OF)|exact E]. Qed.
Lemma min_opp a b : fmin ltb (- a)%t (- b)%t = (- (fmax ltb a b))%t.
Proof. unfold fmin, fmax. rewrite opp_lt. destruct (ltb a b); reflexivity. Qed.
Lemma max_opp a b : fmax ltb (- a)%t (- b)%t = (- (fmin ltb a b))%t.
Proof. unfold fmin, fmax. rewrite opp_lt. destruct (ltb b a); reflexivity. Qed.
Lemma half_pos : (0 < half)%t.
Proof.
  assert (H := of_half _ _ _ _ _ _ _ _ _ _ OF). assert (N : one <> zero) by apply (F_1_neq_0 oft).
  destruct (ltb zero half) eqn:E; [reflexivity|exfalso]. destruct (ltb half zero) eqn:F.
  - assert (P : (0 < - half)%t) by (rewrite opp_neg; exact F). assert (Q := of_mul _ _ _ _ _ _ _ _ _ _ OF _ _ P P). assert (Q2 := pos_add _ _ Q Q).
    replace (- half * - half + - half * - half)%t with (half * (half + half))%t in Q2 by ring. rewrite H in Q2. replace (half * 1)%t with half in Q2 by ring. congruence.
  - apply N. rewrite <- H. rewrite <- (of_total _ _ _ _ _ _ _ _ _ _ OF _ _ E F). ring.
Qed.
Lemma halves a : (half * (a + a))%t = a.
Proof. transitivity ((half + half) * a)%t; [ring|]. rewrite (of_half _ _ _ _ _ _ _ _ _ _ OF). ring. Qed.

(** ** Scalars of a fused simulation *)
Section Scalars.
Variables (hL hR huL huR bL bR g : T).
Definition uRoe := ((sqrt hL * (huL / hL) + sqrt hR * (huR / hR)) / (sqrt hL + sqrt hR))%t.
Definition cRoe := sqrt (gDef * (half * (hL + hR)))%t.
Definition lam0 := fmin ltb (huL / hL - sqrt (gDef * hL))%t (uRoe - cRoe)%t.
Definition lam1 := fmax ltb (huR / hR + sqrt (gDef * hR))%t (uRoe + cRoe)%t.
Definition jump0 := (huR - huL)%t.
Definition jump1 := (huR * (huR / hR) + half * g * hR * hR - (huL * (huL / hL) + half * g * hL * hL) + half * g * (hR + hL) * (bR - bL))%t.
Definition beta0 := (1 / (lam1 - lam0) * lam1 * jump0 + - (1 / (lam1 - lam0)) * jump1)%t.
Definition beta1 := (- (1 / (lam1 - lam0)) * lam0 * jump0 + 1 / (lam1 - lam0) * jump1)%t.
Definition netup := nus1 zero add mul ltb lam0 lam1 beta0 beta1.

Lemma lam_lt : (0 < hL)%t -> (0 < hR)%t -> (lam0 < lam1)%t.
Proof.
  intros PL PR. assert (C : (0 < cRoe)%t). { apply SQ. apply (of_mul _ _ _ _ _ _ _ _ _ _ OF); auto. apply (of_mul _ _ _ _ _ _ _ _ _ _ OF); [apply half_pos|apply pos_add; auto]. }
  eapply le_lt_trans; [apply min_le|]. eapply lt_le_trans; [|apply max_le]. rewrite <- (add_lt _ _ (cRoe - uRoe)%t). replace (uRoe - cRoe + (cRoe - uRoe))%t with zero by ring. replace (uRoe + cRoe + (cRoe - uRoe))%t with (cRoe + cRoe)%t by ring. apply pos_add; auto.
Qed.
End Scalars.

Lemma fw_get hL hR huL huR bL bR g cr : cr < nCr ->
  let '(nL, nR) := fw hL hR huL huR bL bR g in
  ((get (fst nL) cr, get (snd nL) cr), (get (fst nR) cr, get (snd nR) cr)) = netup (get hL cr) (get hR cr) (get huL cr) (get huR cr) bL bR g.
Proof.
  intros H. unfold Fwave.fwave, nus. cbn [fst snd]. rewrite !get_tab by auto. unfold waveStrengths. cbn [fst snd]. rewrite !get_tab by auto. unfold evs. cbn [fst snd]. rewrite !get_tab by auto.
  unfold netup, beta0, beta1, jump0, jump1, lam0, lam1, uRoe, cRoe. match goal with |- (?a, ?b, (?c, ?d)) = ?r => destruct r as ((?,?),(?,?)) end. reflexivity.
Qed.

(** C46: the net-updates of a face sum up to the jump of the fluxes plus the effect of the bathymetry (in every fused simulation with water on both sides) *)
Theorem C46_conservation hL hR huL huR bL bR g cr : cr < nCr -> (0 < get hL cr)%t -> (0 < get hR cr)%t ->
  let '(nL, nR) := fw hL hR huL huR bL bR g in
  let flux h hu := (hu * hu / h + half * g * h * h)%t in
  (get (fst nL) cr + get (fst nR) cr = get huR cr - get huL cr)%t /\
  (get (snd nL) cr + get (snd nR) cr = flux (get hR cr) (get huR cr) - flux (get hL cr) (get huL cr) + g * (half * (get hL cr + get hR cr)) * (bR - bL))%t.
Proof.
  intros H PL PR. assert (E := fw_get hL hR huL huR bL bR g cr H). destruct (fw hL hR huL huR bL bR g) as (nL & nR). cbv beta zeta.
  set (a := get hL cr) in *. set (b := get hR cr) in *. set (c := get huL cr) in *. set (d := get huR cr) in *.
  assert (LT := lam_lt a b c d PL PR). assert (ND : (lam1 a b c d - lam0 a b c d)%t <> zero). { intros Z. apply (lt_ne _ _ LT). transitivity (lam1 a b c d - (lam1 a b c d - lam0 a b c d))%t; [ring|]. rewrite Z. ring. }
  assert (NA := pos_ne _ PL). assert (NB := pos_ne _ PR).
  assert (S0 : (beta0 a b c d bL bR g + beta1 a b c d bL bR g)%t = jump0 c d) by (unfold beta0, beta1; field; auto).
  assert (S1 : (beta0 a b c d bL bR g * lam0 a b c d + beta1 a b c d bL bR g * lam1 a b c d)%t = jump1 a b c d bL bR g) by (unfold beta0, beta1; field; auto).
  assert (J : jump1 a b c d bL bR g = (d * d / b + half * g * b * b - (c * c / a + half * g * a * a) + g * (half * (a + b)) * (bR - bL))%t) by (unfold jump1; field; auto).
  unfold netup, nus1 in E. rewrite <- J, <- S1. change (d - c)%t with (jump0 c d). rewrite <- S0.
  destruct (ltb (lam0 a b c d) zero), (ltb zero (lam1 a b c d)); injection E as -> -> -> ->; split; ring.
Qed.

(** C46: no net-updates for water at rest, i.e. no momentum and a constant surface; in particular for equal states and bathymetry *)
Theorem C46_rest hL hR huL huR bL bR g cr : cr < nCr -> (0 < get hL cr)%t -> (0 < get hR cr)%t ->
  (get huL cr = zero /\ get huR cr = zero /\ (get hL cr + bL = get hR cr + bR)%t) \/ (get hL cr = get hR cr /\ get huL cr = get huR cr /\ bL = bR) ->
  let '(nL, nR) := fw hL hR huL huR bL bR g in get (fst nL) cr = zero /\ get (snd nL) cr = zero /\ get (fst nR) cr = zero /\ get (snd nR) cr = zero.
Proof.
  intros H PL PR C. assert (E := fw_get hL hR huL huR bL bR g cr H). destruct (fw hL hR huL huR bL bR g) as (nL & nR).
  set (a := get hL cr) in *. set (b := get hR cr) in *. set (c := get huL cr) in *. set (d := get huR cr) in *.
  assert (NA := pos_ne _ PL). assert (NB := pos_ne _ PR).
  assert (J0 : jump0 c d = zero) by (unfold jump0; destruct C as [(-> & -> & _)|(_ & -> & _)]; ring).
  assert (J1 : jump1 a b c d bL bR g = zero). { unfold jump1. destruct C as [(-> & -> & S)|(<- & -> & ->)]; [|field; auto]. assert (X : bR = (a + bL - b)%t) by (rewrite S; ring). rewrite X. field. auto. }
  assert (B0 : beta0 a b c d bL bR g = zero). { assert (LT := lam_lt a b c d PL PR). unfold beta0. rewrite J0, J1. ring. }
  assert (B1 : beta1 a b c d bL bR g = zero) by (unfold beta1; rewrite J0, J1; ring).
  unfold netup, nus1 in E. rewrite B0, B1 in E. destruct (ltb (lam0 a b c d) zero), (ltb zero (lam1 a b c d)); injection E as -> -> -> ->; repeat split; ring.
Qed.

Lemma lam0_mirror a b c d : a <> zero -> b <> zero -> (sqrt a + sqrt b)%t <> zero -> lam0 b a (- d)%t (- c)%t = (- lam1 a b c d)%t.
Proof. intros NA NB NS. unfold lam0, lam1. rewrite <- min_opp. f_equal; [field; auto|]. unfold uRoe, cRoe. replace (b + a)%t with (a + b)%t by ring. field. repeat split; auto; intros X; apply NS; rewrite <- X; ring. Qed.
Lemma lam1_mirror a b c d : a <> zero -> b <> zero -> (sqrt a + sqrt b)%t <> zero -> lam1 b a (- d)%t (- c)%t = (- lam0 a b c d)%t.
Proof. intros NA NB NS. unfold lam0, lam1. rewrite <- max_opp. f_equal; [field; auto|]. unfold uRoe, cRoe. replace (b + a)%t with (a + b)%t by ring. field. repeat split; auto; intros X; apply NS; rewrite <- X; ring. Qed.
Lemma jump1_mirror a b c d bL bR g : a <> zero -> b <> zero -> jump1 b a (- d)%t (- c)%t bR bL g = (- jump1 a b c d bL bR g)%t.
Proof. intros NA NB. unfold jump1. field. auto. Qed.
Lemma beta_mirror a b c d bL bR g : (0 < a)%t -> (0 < b)%t -> beta0 b a (- d)%t (- c)%t bR bL g = beta1 a b c d bL bR g /\ beta1 b a (- d)%t (- c)%t bR bL g = beta0 a b c d bL bR g.
Proof.
  intros PA PB. assert (LT := lam_lt a b c d PA PB). assert (ND : (lam1 a b c d - lam0 a b c d)%t <> zero). { intros Z. apply (lt_ne _ _ LT). transitivity (lam1 a b c d - (lam1 a b c d - lam0 a b c d))%t; [ring|]. rewrite Z. ring. }
  assert (NS : (sqrt a + sqrt b)%t <> zero) by (apply pos_ne, pos_add; apply SQ; auto). assert (ND' : (- lam0 a b c d - - lam1 a b c d)%t <> zero) by (intros Z; apply ND; rewrite <- Z; ring).
  unfold beta0, beta1. rewrite !lam0_mirror, !lam1_mirror, !jump1_mirror by (auto using pos_ne). unfold jump0. split; field; auto.
Qed.

(** C46: swapping the two sides and the direction swaps the net-updates, up to the direction of the momentum *)
Theorem C46_mirror hL hR huL huR bL bR g cr : cr < nCr -> (0 < get hL cr)%t -> (0 < get hR cr)%t ->
  let '(nL, nR) := fw hL hR huL huR bL bR g in
  let '(mL, mR) := fw hR hL (tab (fun cr => - get huR cr)%t) (tab (fun cr => - get huL cr)%t) bR bL g in
  get (fst mL) cr = get (fst nR) cr /\ get (fst mR) cr = get (fst nL) cr /\ get (snd mL) cr = (- get (snd nR) cr)%t /\ get (snd mR) cr = (- get (snd nL) cr)%t.
Proof.
  intros H PL PR. assert (E := fw_get hL hR huL huR bL bR g cr H). assert (E' := fw_get hR hL (tab (fun cr => - get huR cr)%t) (tab (fun cr => - get huL cr)%t) bR bL g cr H). rewrite !get_tab in E' by auto.
  destruct (fw hL hR huL huR bL bR g) as (nL & nR). destruct (fw hR hL _ _ bR bL g) as (mL & mR).
  set (a := get hL cr) in *. set (b := get hR cr) in *. set (c := get huL cr) in *. set (d := get huR cr) in *.
  destruct (beta_mirror a b c d bL bR g PL PR) as (B0 & B1). assert (NS : (sqrt a + sqrt b)%t <> zero) by (apply pos_ne, pos_add; apply SQ; auto).
  unfold netup, nus1 in E, E'. rewrite B0, B1 in E'. rewrite lam0_mirror, lam1_mirror in E' by (auto using pos_ne). rewrite opp_pos, opp_neg in E'.
  destruct (ltb (lam0 a b c d) zero), (ltb zero (lam1 a b c d)); injection E as -> -> -> ->; injection E' as -> -> -> ->; repeat split; ring.
Qed.

(** C46: at a wall (mirrored state on the other side), the net-update of the water height annihilates the flux towards the wall *)
Theorem C46_wall hL hR huL huR b g cr : cr < nCr -> (0 < get hL cr)%t -> get hR cr = get hL cr -> get huR cr = (- get huL cr)%t ->
  let '(nL, nR) := fw hL hR huL huR b b g in get (fst nL) cr = (- get huL cr)%t /\ get (fst nR) cr = get huR cr.
Proof.
  intros H PL EH EU. assert (E := fw_get hL hR huL huR b b g cr H). destruct (fw hL hR huL huR b b g) as (nL & nR). rewrite EH, EU in *.
  set (a := get hL cr) in *. set (c := get huL cr) in *. assert (NA := pos_ne _ PL).
  assert (PS := SQ _ PL). assert (NS : (sqrt a + sqrt a)%t <> zero) by (apply pos_ne, pos_add; auto).
  assert (LT := lam_lt a a c (- c)%t PL PL).
  assert (M : lam1 a a c (- c)%t = (- lam0 a a c (- c)%t)%t). { rewrite <- (lam1_mirror a a c (- c)%t) by auto. f_equal. ring. }
  assert (L0 : (lam0 a a c (- c)%t < 0)%t). { destruct (ltb (lam0 a a c (- c)%t) zero) eqn:X; [reflexivity|exfalso]. assert (Y := le_lt_trans _ _ _ X LT). rewrite M, opp_neg in Y. congruence. }
  assert (L1 : (0 < lam1 a a c (- c)%t)%t) by (rewrite M, opp_neg; exact L0).
  assert (N1 := pos_ne _ L1). assert (H2 := of_half _ _ _ _ _ _ _ _ _ _ OF). 
  assert (J1 : jump1 a a c (- c)%t b b g = zero) by (unfold jump1; field; auto).
  assert (L0' : lam0 a a c (- c)%t = (- lam1 a a c (- c)%t)%t) by (rewrite M; ring).
  assert (NN : (lam1 a a c (- c)%t - - lam1 a a c (- c)%t)%t <> zero). { apply pos_ne. replace (lam1 a a c (- c)%t - - lam1 a a c (- c)%t)%t with (lam1 a a c (- c)%t + lam1 a a c (- c)%t)%t by ring. apply pos_add; auto. }
  unfold netup, nus1 in E. rewrite L0, L1 in E. assert (B0 : beta0 a a c (- c)%t b b g = (- c)%t) by (unfold beta0; rewrite J1, L0'; unfold jump0; field; auto).
  assert (B1 : beta1 a a c (- c)%t b b g = (- c)%t) by (unfold beta1; rewrite J1, L0'; unfold jump0; field; auto).
  rewrite B0, B1 in E. injection E as E1 _ E3 _. rewrite E1, E3. split; ring.
Qed.

(** ** Sums *)
Fixpoint sigma (n : nat) (f : nat -> T) : T := match n with O => zero | S n => (sigma n f + f n)%t end.
Lemma sigma_ext n f g : (forall k, k < n -> f k = g k) -> sigma n f = sigma n g.
Proof. induction n as [|n IH]; intros H; [reflexivity|]. cbn. rewrite IH by (intros; apply H; lia). rewrite H by lia. reflexivity. Qed.
Lemma sigma_add n f g : sigma n (fun k => f k + g k)%t = (sigma n f + sigma n g)%t.
Proof. induction n as [|n IH]; cbn; [ring|]. rewrite IH. ring. Qed.
Lemma sigma_mul n a f : sigma n (fun k => a * f k)%t = (a * sigma n f)%t.
Proof. induction n as [|n IH]; cbn; [ring|]. rewrite IH. ring. Qed.
Lemma sigma_zero n : sigma n (fun _ => zero) = zero.
Proof. induction n as [|n IH]; cbn; [reflexivity|]. rewrite IH. ring. Qed.
Lemma sigma_swap n m f : sigma n (fun i => sigma m (fun j => f i j)) = sigma m (fun j => sigma n (fun i => f i j)).
Proof. induction n as [|n IH]; cbn [sigma]; [symmetry; apply sigma_zero|]. rewrite IH, <- sigma_add. reflexivity. Qed.
Lemma sigma_one n j x : j < n -> sigma n (fun k => if k =? j then x k else zero) = x j.
Proof.
  induction n as [|n IH]; intros H; [lia|]. cbn [sigma]. destruct (Nat.eqb_spec n j) as [->|N].
  - rewrite (sigma_ext _ _ (fun _ => zero)); [rewrite sigma_zero; ring|]. intros k Hk. destruct (Nat.eqb_spec k j); [lia|reflexivity].
  - rewrite IH by lia. ring.
Qed.
Lemma sigma_list n l f : NoDup l -> (forall x, In x l -> x < n) -> sigma (length l) (fun k => f (nth k l 0)) = sigma n (fun x => if existsb (Nat.eqb x) l then f x else zero).
Proof.
  intros ND. revert l ND. enough (G : forall l, NoDup l -> (forall x, In x l -> x < n) -> fold_right (fun x s => f x + s)%t zero l = sigma n (fun x => if existsb (Nat.eqb x) l then f x else zero)).
  { intros l ND B. rewrite <- G by auto. clear G ND B. assert (X : forall l a, fold_right (fun x s => f x + s)%t a l = (sigma (length l) (fun k => f (nth k l 0%nat)) + a)%t).
    { clear l. induction l as [|x l IH] using rev_ind; intros a; [cbn; ring|]. rewrite fold_right_app. cbn [fold_right]. rewrite IH, app_length, Nat.add_1_r. cbn [sigma]. rewrite nth_middle. rewrite (sigma_ext (length l) (fun k => f (nth k (l ++ [x]) 0)) (fun k => f (nth k l 0))); [ring|]. intros k Hk. rewrite app_nth1 by auto. reflexivity. }
    rewrite X. ring. }
  induction l as [|x l IH]; intros ND B; [cbn; symmetry; apply sigma_zero|]. inversion ND; subst. cbn [fold_right existsb]. rewrite IH by (auto with datatypes).
  rewrite <- (sigma_one n x f) by (apply B; left; reflexivity). rewrite <- sigma_add. apply sigma_ext. intros k Hk. destruct (Nat.eqb_spec k x) as [->|N]; cbn [orb]; [|ring].
  destruct (existsb (Nat.eqb x) l) eqn:E; [|ring]. apply existsb_exists in E as (y & Hy & Ey). apply Nat.eqb_eq in Ey. subst y. contradiction.
Qed.

(** ** Finite volume scheme *)
Variables (nDi nFas nEl nFa : nat).
Notation face := (@face T).
Notation state := (list (list (list T))).
Notation nusFaceM := (nusFace zero one half add sub mul div opp sqrt ltb gDef nCr nDi).
Notation nusNM := (nusN zero one half add sub mul div opp sqrt ltb gDef nCr nDi).
Notation updateM := (update zero one sub mul div nCr nDi nFas).

Definition dface : face := {| fOut := false; fRefl := false; fN := []; fArea := zero |}.
(** water height, momentum and bathymetry of the elements *)
Definition hOf (dofs : state) (el cr : nat) : T := get (nth 0 (nth el dofs []) []) cr.
Definition huOf (dofs : state) (el di cr : nat) : T := get (nth (1 + di) (nth el dofs []) []) cr.
Definition wet (bath : list T) (el : nat) : bool := ltb (nth el bath zero) zero.
(** momentum in the direction of a face's normal *)
Definition huN (dofs : state) (f : face) (el cr : nat) : T := sigma nDi (fun di => nth di (fN f) zero * huOf dofs el di cr)%t.
Definition bnd (f : face) : bool := fOut f || fRefl f.

(** sizes *)
Definition state_ok (dofs : state) (bath : list T) : Prop := length dofs = nEl /\ Forall (fun r => length r = 1 + nDi) dofs /\ length bath = nEl.
Definition water (dofs : state) (bath : list T) : Prop := forall el cr, el < nEl -> cr < nCr -> wet bath el = true -> (0 < hOf dofs el cr)%t.
(** faces and elements: every face has a left element; a face which is not at a boundary has another right element *)
Record mesh_ok (faEl : list (nat * nat)) (chars : list face) (elFa : list (list nat)) : Prop := {
  m_faEl : length faEl = nFa;
  m_chars : length chars = nFa;
  m_elFa : length elFa = nEl;
  m_nFas : Forall (fun l => length l = nFas) elFa;
  m_normal : Forall (fun f => length (fN f) = nDi) chars;
  m_left : forall fa, fa < nFa -> fst (nth fa faEl (0, 0)) < nEl;
  m_right : forall fa, fa < nFa -> bnd (nth fa chars dface) = false -> snd (nth fa faEl (0, 0)) < nEl /\ snd (nth fa faEl (0, 0)) <> fst (nth fa faEl (0, 0));
  m_nodup : forall el, el < nEl -> NoDup (nth el elFa []);
  m_adj : forall el fa, el < nEl -> In fa (nth el elFa []) <-> fa < nFa /\ (fst (nth fa faEl (0, 0)) = el \/ bnd (nth fa chars dface) = false /\ snd (nth fa faEl (0, 0)) = el)
}.

Lemma side_ok n dofs bath el : state_ok dofs bath -> el < nEl -> length n = nDi -> exists q,
  qtsSide zero add mul nCr nDi n dofs bath el = Ok (q, nth el bath zero) /\ forall cr, cr < nCr -> get (fst q) cr = hOf dofs el cr /\ get (snd q) cr = sigma nDi (fun di => nth di n zero * huOf dofs el di cr)%t.
Proof.
  intros (LD & FD & LB) He Ln. unfold qtsSide. rewrite (rd_ok bath el zero) by lia. cbn [bind]. rewrite (rd_ok dofs el []) by lia. cbn [bind].
  assert (LR : length (nth el dofs []) = 1 + nDi) by (rewrite Forall_forall in FD; apply FD, nth_In; lia). rewrite (rd_ok _ 0 []) by lia. cbn [bind].
  match goal with |- context [for_ 0 nDi ?bd ?s0] => destruct (for_ok (fun k hu => forall cr, cr < nCr -> get hu cr = sigma k (fun di => nth di n zero * huOf dofs el di cr)%t) 0 nDi bd s0) as (hu & E & V) end; [lia| | |].
  - intros cr Hc. rewrite get_tab by auto. reflexivity.
  - intros di hu Hd V. rewrite (rd_ok n di zero) by lia. cbn [bind]. rewrite (rd_ok _ (1 + di) []) by lia. cbn [bind]. eexists. split; [reflexivity|]. intros cr Hc. rewrite get_tab by auto. rewrite V by auto. reflexivity.
  - rewrite E. cbn [bind]. eexists. split; [reflexivity|]. cbn [fst snd]. intros cr Hc. rewrite get_tab by auto. split; [reflexivity|]. apply V; auto.
Qed.

(** net-updates of a face *)
Definition face_spec (dofs : state) (bath : list T) (f : face) (els : nat * nat) (n : vec2 * vec2) : Prop :=
  forall cr, cr < nCr ->
  let wl := wet bath (fst els) in let wr := wet bath (snd els) in let ul := huN dofs f (fst els) cr in let ur := huN dofs f (snd els) cr in
  (wl = false -> get (fst (fst n)) cr = zero /\ get (snd (fst n)) cr = zero) /\
  (bnd f = false -> wr = false -> get (fst (snd n)) cr = zero /\ get (snd (snd n)) cr = zero) /\
  (fOut f = true -> wl = true -> get (fst (fst n)) cr = zero) /\
  (fOut f = false -> fRefl f = true -> wl = true -> get (fst (fst n)) cr = (- ul)%t) /\
  (bnd f = false -> wl = true -> wr = true -> (get (fst (fst n)) cr + get (fst (snd n)) cr = ur - ul)%t) /\
  (bnd f = false -> wl = true -> wr = false -> get (fst (fst n)) cr = (- ul)%t) /\
  (bnd f = false -> wl = false -> wr = true -> get (fst (snd n)) cr = ur).

Lemma zero2_get cr : cr < nCr -> get (fst (zero2 zero nCr)) cr = zero /\ get (snd (zero2 zero nCr)) cr = zero.
Proof. intros H. unfold zero2. cbn [fst snd]. rewrite !get_tab by auto. auto. Qed.

Lemma face_ok dofs bath f els : state_ok dofs bath -> water dofs bath -> length (fN f) = nDi -> fst els < nEl -> (bnd f = false -> snd els < nEl) ->
  exists n, nusFaceM f els dofs bath = Ok n /\ face_spec dofs bath f els n.
Proof.
  intros SO WA Ln Hl Hr. unfold nusFace, qtsLr. destruct (side_ok (fN f) dofs bath (fst els) SO Hl Ln) as (qL & EL & VL). rewrite EL. cbn [bind].
  change (forall cr, cr < nCr -> get (fst qL) cr = hOf dofs (fst els) cr /\ get (snd qL) cr = huN dofs f (fst els) cr) in VL. assert (ZZ := zero2_get).
  destruct (fOut f) eqn:EO.
  - cbn [negb andb bind]. unfold face_spec, bnd. rewrite EO. cbn [orb]. unfold wet. destruct (ltb (nth (fst els) bath zero) zero) eqn:EB; cbn [negb andb].
    + assert (X : forall cr, cr < nCr -> let '(nL, nR) := fw (fst qL) (fst qL) (snd qL) (snd qL) (nth (fst els) bath zero) (nth (fst els) bath zero) gDef in get (fst nL) cr = zero).
      { intros cr Hc. assert (Y := C46_rest (fst qL) (fst qL) (snd qL) (snd qL) (nth (fst els) bath zero) (nth (fst els) bath zero) gDef cr Hc). destruct (VL cr Hc) as (V1 & V2). destruct (fw (fst qL) (fst qL) (snd qL) (snd qL) _ _ gDef) as (nL & nR). apply Y; auto; rewrite V1; apply WA; auto. }
      destruct (fw (fst qL) (fst qL) (snd qL) (snd qL) _ _ gDef) as (nL & nR). eexists. split; [reflexivity|]. intros cr Hc. cbn [fst snd]. repeat split; intros; try congruence. apply X; auto.
    + eexists. split; [reflexivity|]. intros cr Hc. cbn [fst snd]. destruct (ZZ cr Hc). repeat split; intros; auto; congruence.
  - destruct (fRefl f) eqn:ER.
    + cbn [negb andb bind]. unfold face_spec, bnd. rewrite EO, ER. cbn [orb]. unfold wet. destruct (ltb (nth (fst els) bath zero) zero) eqn:EB; cbn [negb andb fst snd].
      * match goal with |- context [fw ?a ?b ?c ?d ?e ?f ?g] => assert (Y := fun cr => C46_wall a b c d e g cr); destruct (fw a b c d e f g) as (nL & nR) end.
        eexists. split; [reflexivity|]. intros cr Hc. cbn [fst snd]. destruct (VL cr Hc) as (V1 & V2). specialize (Y cr Hc). rewrite !get_tab in Y by auto. destruct Y as (Y1 & _); [rewrite V1; apply WA; auto|reflexivity|reflexivity|].
        repeat split; intros; try congruence.
      * eexists. split; [reflexivity|]. intros cr Hc. cbn [fst snd]. destruct (ZZ cr Hc). repeat split; intros; auto; congruence.
    + cbn [negb andb]. assert (BF : bnd f = false) by (unfold bnd; rewrite EO, ER; reflexivity). destruct (side_ok (fN f) dofs bath (snd els) SO (Hr BF) Ln) as (qR & E2 & VR). rewrite E2. cbn [bind].
      change (forall cr, cr < nCr -> get (fst qR) cr = hOf dofs (snd els) cr /\ get (snd qR) cr = huN dofs f (snd els) cr) in VR.
      unfold face_spec. rewrite BF, EO, ER. unfold wet. destruct (ltb (nth (fst els) bath zero) zero) eqn:EB, (ltb (nth (snd els) bath zero) zero) eqn:EC; cbn [negb andb fst snd].
      * match goal with |- context [fw ?a ?b ?c ?d ?e ?f ?g] => assert (Y := fun cr => C46_conservation a b c d e f g cr); destruct (fw a b c d e f g) as (nL & nR) end.
        eexists. split; [reflexivity|]. intros cr Hc. cbn [fst snd]. destruct (VL cr Hc) as (V1 & V2). destruct (VR cr Hc) as (V3 & V4). specialize (Y cr Hc). rewrite V1, V2, V3, V4 in Y. destruct Y as (Y & _); [apply WA; auto|apply WA; auto|]. repeat split; intros; try congruence.
      * unfold mirror. match goal with |- context [fw ?a ?b ?c ?d ?e ?f ?g] => assert (Y := fun cr => C46_wall a b c d e g cr); destruct (fw a b c d e f g) as (nL & nR) end.
        eexists. split; [reflexivity|]. intros cr Hc. cbn [fst snd]. destruct (ZZ cr Hc). destruct (VL cr Hc) as (V1 & V2). specialize (Y cr Hc). cbn [fst snd] in Y. rewrite !get_tab in Y by auto. destruct Y as (Y1 & _); [rewrite V1; apply WA; auto|reflexivity|reflexivity|]. repeat split; intros; auto; congruence.
      * unfold mirror. match goal with |- context [fw ?a ?b ?c ?d ?e ?f ?g] => assert (Y := fun cr => C46_wall a b c d e g cr); destruct (fw a b c d e f g) as (nL & nR) end.
        eexists. split; [reflexivity|]. intros cr Hc. cbn [fst snd]. destruct (ZZ cr Hc). destruct (VR cr Hc) as (V1 & V2). specialize (Y cr Hc). cbn [fst snd] in Y. rewrite !get_tab in Y by auto. destruct Y as (_ & Y1); [rewrite V1; apply WA; auto|reflexivity|ring|]. repeat split; intros; auto; congruence.
      * eexists. split; [reflexivity|]. intros cr Hc. cbn [fst snd]. destruct (ZZ cr Hc). repeat split; intros; auto; congruence.
Qed.

(** all faces of a range *)
Lemma nusN_ok (P : nat -> vec2 * vec2 -> Prop) first size faEl chars dofs bath out : first + size <= nFa -> length faEl = nFa -> length chars = nFa -> length out = nFa ->
  (forall fa, first <= fa < first + size -> exists n, nusFaceM (nth fa chars dface) (nth fa faEl (0, 0)) dofs bath = Ok n /\ P fa n) ->
  exists nu, nusNM first size faEl chars dofs bath out = Ok nu /\ length nu = nFa /\ forall fa, (first <= fa < first + size -> P fa (nth fa nu (zero2 zero nCr, zero2 zero nCr))) /\ (~ first <= fa < first + size -> nth_error nu fa = nth_error out fa).
Proof.
  intros B L1 L2 L3 H. unfold nusN. match goal with |- context [for_ first (first + size) ?bd out] => destruct (for_ok (fun k nu => length nu = nFa /\ forall fa, (first <= fa < k -> P fa (nth fa nu (zero2 zero nCr, zero2 zero nCr))) /\ (~ first <= fa < k -> nth_error nu fa = nth_error out fa)) first (first + size) bd out) as (nu & E & L & V) end; [lia| | |].
  - split; [auto|]. intros fa. split; [lia|reflexivity].
  - intros fa nu Hf (L & V). rewrite (rd_ok faEl fa (0, 0)) by lia. cbn [bind]. rewrite (rd_ok chars fa dface) by lia. cbn [bind]. destruct (H fa ltac:(lia)) as (n & E & Pn). rewrite E. cbn [bind]. rewrite wr_ok by lia. eexists. split; [reflexivity|]. split; [rewrite length_upd; auto|].
    intros fa'. destruct (Nat.eq_dec fa' fa) as [->|N]; [rewrite nth_upd_eq by lia; split; [auto|lia]|]. rewrite nth_upd_ne, nth_error_upd_ne by auto. destruct (V fa') as (V1 & V2). split; intros; [apply V1; lia|apply V2; lia].
  - exists nu. auto.
Qed.

(** side of a face *)
Definition sideOf (faEl : list (nat * nat)) (nu : list (vec2 * vec2)) (el fa : nat) : vec2 := let n := nth fa nu (zero2 zero nCr, zero2 zero nCr) in if fst (nth fa faEl (0, 0)) =? el then fst n else snd n.

Lemma update_ok first size dT faEl elFa chars vol nu dofs bath : mesh_ok faEl chars elFa -> state_ok dofs bath -> length vol = nEl -> length nu = nFa -> first + size <= nEl ->
  exists dofs', updateM first size dT faEl elFa chars vol nu dofs = Ok dofs' /\ state_ok dofs' bath /\
  forall el, (~ first <= el < first + size -> nth_error dofs' el = nth_error dofs el) /\
  (first <= el < first + size -> forall cr, cr < nCr ->
     hOf dofs' el cr = (hOf dofs el cr - dT * (1 / nth el vol zero) * sigma nFas (fun ad => let fa := nth ad (nth el elFa []) 0%nat in fArea (nth fa chars dface) * get (fst (sideOf faEl nu el fa)) cr))%t /\
     forall di, di < nDi -> huOf dofs' el di cr = (huOf dofs el di cr - dT * (1 / nth el vol zero) * sigma nFas (fun ad => let fa := nth ad (nth el elFa []) 0%nat in fArea (nth fa chars dface) * nth di (fN (nth fa chars dface)) zero * get (snd (sideOf faEl nu el fa)) cr))%t).
Proof.
  intros MO (LD & FD & LB) LV LN B. unfold update.
  match goal with |- context [for_ first (first + size) ?bd dofs] => destruct (for_ok (fun k (d : state) => state_ok d bath /\ forall el, (~ first <= el < k -> nth_error d el = nth_error dofs el) /\
  (first <= el < k -> forall cr, cr < nCr ->
     hOf d el cr = (hOf dofs el cr - dT * (1 / nth el vol zero) * sigma nFas (fun ad => let fa := nth ad (nth el elFa []) 0%nat in fArea (nth fa chars dface) * get (fst (sideOf faEl nu el fa)) cr))%t /\
     forall di, di < nDi -> huOf d el di cr = (huOf dofs el di cr - dT * (1 / nth el vol zero) * sigma nFas (fun ad => let fa := nth ad (nth el elFa []) 0%nat in fArea (nth fa chars dface) * nth di (fN (nth fa chars dface)) zero * get (snd (sideOf faEl nu el fa)) cr))%t)) first (first + size) bd dofs) as (d & E & S & V) end; [lia| | |].
  - split; [repeat split; auto|]. intros el. split; [reflexivity|lia].
  - intros el d He ((LD' & FD' & _) & V). assert (Hel : el < nEl) by lia. rewrite (rd_ok vol el zero) by lia. cbn [bind]. rewrite (rd_ok elFa el []) by (rewrite (m_elFa _ _ _ MO); lia). cbn [bind]. rewrite (rd_ok d el []) by lia. cbn [bind].
    assert (RD : nth el d [] = nth el dofs []). { destruct (V el) as (V1 & _). specialize (V1 ltac:(lia)). rewrite (nth_error_nth' d []) in V1 by lia. rewrite (nth_error_nth' dofs []) in V1 by lia. congruence. } rewrite RD.
    assert (LF : length (nth el elFa []) = nFas). { pose proof (m_nFas _ _ _ MO) as X. rewrite Forall_forall in X. apply X, nth_In. rewrite (m_elFa _ _ _ MO). lia. }
    assert (LR : length (nth el dofs []) = 1 + nDi) by (rewrite Forall_forall in FD; apply FD, nth_In; lia).
    set (sca := (dT * (1 / nth el vol zero))%t). set (row0 := nth el dofs []) in *.
    destruct (for_ok (fun k row => length row = 1 + nDi /\ forall cr, cr < nCr ->
       get (nth 0 row []) cr = (get (nth 0 row0 []) cr - sca * sigma k (fun ad => let fa := nth ad (nth el elFa []) 0%nat in fArea (nth fa chars dface) * get (fst (sideOf faEl nu el fa)) cr))%t /\
       forall di, di < nDi -> get (nth (1 + di) row []) cr = (get (nth (1 + di) row0 []) cr - sca * sigma k (fun ad => let fa := nth ad (nth el elFa []) 0%nat in fArea (nth fa chars dface) * nth di (fN (nth fa chars dface)) zero * get (snd (sideOf faEl nu el fa)) cr))%t)
       0 nFas (updateAd zero sub mul nCr nDi sca el faEl (nth el elFa []) chars nu) row0) as (row & E & LRow & VR); [lia| | |].
    + split; [auto|]. intros cr Hc. split; [cbn [sigma]; ring|]. intros di Hd. cbn [sigma]. ring.
    + intros ad row Ha (Lr & VR). unfold updateAd. rewrite (rd_ok _ ad 0%nat) by lia. cbn [bind]. set (fa := nth ad (nth el elFa []) 0%nat).
      assert (HF : fa < nFa). { apply (m_adj _ _ _ MO el fa Hel). apply nth_In. lia. }
      rewrite (rd_ok chars fa dface) by (rewrite (m_chars _ _ _ MO); lia). cbn [bind]. rewrite (rd_ok faEl fa (0, 0)) by (rewrite (m_faEl _ _ _ MO); lia). cbn [bind]. rewrite (rd_ok nu fa (zero2 zero nCr, zero2 zero nCr)) by lia. cbn [bind].
      rewrite (rd_ok row 0 []) by lia. cbn [bind]. rewrite wr_ok by lia. cbn [bind]. change (if fst (nth fa faEl (0, 0)) =? el then fst (nth fa nu (zero2 zero nCr, zero2 zero nCr)) else snd (nth fa nu (zero2 zero nCr, zero2 zero nCr))) with (sideOf faEl nu el fa).
      set (row1 := upd row 0 _). set (f := nth fa chars dface). assert (LN' : length (fN f) = nDi). { pose proof (m_normal _ _ _ MO) as X. rewrite Forall_forall in X. apply X, nth_In. rewrite (m_chars _ _ _ MO). lia. }
      match goal with |- context [for_ 0 nDi ?bd row1] => destruct (for_ok (fun k r => length r = 1 + nDi /\ nth 0 r [] = nth 0 row1 [] /\ (forall di, k <= di < nDi -> nth (1 + di) r [] = nth (1 + di) row []) /\ forall di cr, di < k -> cr < nCr -> get (nth (1 + di) r []) cr = (get (nth (1 + di) row []) cr - sca * fArea f * nth di (fN f) zero * get (snd (sideOf faEl nu el fa)) cr)%t) 0 nDi bd row1) as (r & E & Lr' & R0 & R1 & R2) end; [lia| | |].
      * unfold row1. rewrite length_upd. split; [auto|]. split; [reflexivity|]. split; [|intros; lia]. intros di Hd. rewrite nth_upd_ne by lia. reflexivity.
      * intros di r Hd (Lr' & R0 & R1 & R2). rewrite (rd_ok (fN f) di zero) by lia. cbn [bind]. rewrite (rd_ok r (di + 1) []) by lia. cbn [bind]. rewrite wr_ok by lia. eexists. split; [reflexivity|]. rewrite length_upd. split; [auto|]. rewrite nth_upd_ne by lia. split; [auto|].
        rewrite (Nat.add_comm di 1). split; [intros di' Hd'; rewrite nth_upd_ne by lia; apply R1; lia|]. intros di' cr Hd' Hc. destruct (Nat.eq_dec di' di) as [->|N]; [|rewrite nth_upd_ne by lia; apply R2; [lia|auto]].
        rewrite nth_upd_eq by lia. rewrite get_tab by auto. rewrite R1 by lia. reflexivity.
      * exists r. split; [exact E|]. split; [auto|]. intros cr Hc. destruct (VR cr Hc) as (W0 & W1). split.
        -- rewrite R0. unfold row1. rewrite nth_upd_eq by lia. rewrite get_tab by auto. rewrite W0. cbn [sigma]. fold fa. fold f. cbv zeta. ring.
        -- intros di Hd. rewrite R2 by auto. rewrite W1 by auto. cbn [sigma]. fold fa. fold f. cbv zeta. ring.
    + rewrite E. cbn [bind]. rewrite wr_ok by lia. eexists. split; [reflexivity|]. split.
      * repeat split; [rewrite length_upd; auto| |auto]. apply Forall_forall. intros x Hx. apply (In_nth _ _ []) in Hx as (e & Hx & <-). rewrite length_upd in Hx. destruct (Nat.eq_dec e el) as [->|N]; [rewrite nth_upd_eq by lia; auto|]. rewrite nth_upd_ne by auto. rewrite Forall_forall in FD'. apply FD', nth_In. auto.
      * intros e. destruct (Nat.eq_dec e el) as [->|N].
        -- split; [lia|]. intros _ cr Hc. unfold hOf, huOf. rewrite nth_upd_eq by lia. exact (VR cr Hc).
        -- rewrite nth_error_upd_ne by auto. destruct (V e) as (V1 & V2). split; [intros; apply V1; lia|]. intros He' cr Hc. unfold hOf at 1, huOf at 1. rewrite nth_upd_ne by auto. apply V2; [lia|auto].
  - exists d. auto.
Qed.

(** time step of all elements *)
Definition stepFV (dT : T) faEl elFa chars vol bath out (dofs : state) : res state :=
  nu <- nusNM 0 nFa faEl chars dofs bath out;; updateM 0 nEl dT faEl elFa chars vol nu dofs.

(** the faces of every element are closed: the area-weighted outward-pointing normals add up to zero *)
Definition closed (faEl : list (nat * nat)) (chars : list face) (elFa : list (list nat)) : Prop :=
  forall el di, el < nEl -> di < nDi ->
  sigma nFas (fun ad => let fa := nth ad (nth el elFa []) 0 in ((if fst (nth fa faEl (0, 0)%nat) =? el then 1 else opp one) * (fArea (nth fa chars dface) * nth di (fN (nth fa chars dface)) zero))%t) = zero.

Lemma step_ok dT faEl elFa chars vol bath out dofs : mesh_ok faEl chars elFa -> state_ok dofs bath -> water dofs bath -> length vol = nEl -> length out = nFa ->
  exists nu dofs', nusNM 0 nFa faEl chars dofs bath out = Ok nu /\ stepFV dT faEl elFa chars vol bath out dofs = Ok dofs' /\ state_ok dofs' bath /\
  (forall fa, fa < nFa -> face_spec dofs bath (nth fa chars dface) (nth fa faEl (0, 0)) (nth fa nu (zero2 zero nCr, zero2 zero nCr))) /\
  (forall el, el < nEl -> forall cr, cr < nCr ->
     hOf dofs' el cr = (hOf dofs el cr - dT * (1 / nth el vol zero) * sigma nFas (fun ad => let fa := nth ad (nth el elFa []) 0%nat in fArea (nth fa chars dface) * get (fst (sideOf faEl nu el fa)) cr))%t /\
     forall di, di < nDi -> huOf dofs' el di cr = (huOf dofs el di cr - dT * (1 / nth el vol zero) * sigma nFas (fun ad => let fa := nth ad (nth el elFa []) 0%nat in fArea (nth fa chars dface) * nth di (fN (nth fa chars dface)) zero * get (snd (sideOf faEl nu el fa)) cr))%t).
Proof.
  intros MO SO WA LV LO. assert (FS : forall fa, 0 <= fa < 0 + nFa -> exists n, nusFaceM (nth fa chars dface) (nth fa faEl (0, 0)) dofs bath = Ok n /\ face_spec dofs bath (nth fa chars dface) (nth fa faEl (0, 0)) n).
  { intros fa Hf. apply face_ok; auto.
    - pose proof (m_normal _ _ _ MO) as X. rewrite Forall_forall in X. apply X, nth_In. rewrite (m_chars _ _ _ MO). lia.
    - apply (m_left _ _ _ MO). lia.
    - intros B. apply (m_right _ _ _ MO); [lia|auto]. }
  destruct (nusN_ok (fun fa n => face_spec dofs bath (nth fa chars dface) (nth fa faEl (0, 0)) n) 0 nFa faEl chars dofs bath out) as (nu & E & LN & VN); auto; [apply (m_faEl _ _ _ MO)|apply (m_chars _ _ _ MO)|].
  destruct (update_ok 0 nEl dT faEl elFa chars vol nu dofs bath MO SO LV LN ltac:(lia)) as (d & E2 & SD & VD).
  exists nu, d. split; [exact E|]. unfold stepFV. rewrite E. cbn [bind]. split; [exact E2|]. split; [exact SD|]. split.
  - intros fa Hf. apply VN. lia.
  - intros el He. apply VD. lia.
Qed.

Lemma existsb_in x l : existsb (Nat.eqb x) l = true <-> In x l.
Proof. rewrite existsb_exists. split; [intros (y & H & E); apply Nat.eqb_eq in E; subst; auto|]. intros H. exists x. rewrite Nat.eqb_refl. auto. Qed.

(** C57: in a time step, the volume of water in the mesh changes by the flux through the outflow boundaries of wet elements only; in particular it is constant without outflow
    boundaries, whatever walls, dry elements and bathymetry *)
Theorem C57_water dT faEl elFa chars vol bath out dofs : mesh_ok faEl chars elFa -> closed faEl chars elFa -> state_ok dofs bath -> water dofs bath ->
  length vol = nEl -> (forall el, el < nEl -> nth el vol zero <> zero) -> length out = nFa ->
  exists dofs', stepFV dT faEl elFa chars vol bath out dofs = Ok dofs' /\ state_ok dofs' bath /\
  forall cr, cr < nCr -> sigma nEl (fun el => nth el vol zero * hOf dofs' el cr)%t =
    (sigma nEl (fun el => nth el vol zero * hOf dofs el cr) - dT * sigma nFa (fun fa => let f := nth fa chars dface in let el := fst (nth fa faEl (0, 0)%nat) in if fOut f && wet bath el then fArea f * huN dofs f el cr else 0))%t.
Proof.
  intros MO CL SO WA LV VP LO. destruct (step_ok dT faEl elFa chars vol bath out dofs MO SO WA LV LO) as (nu & d & _ & ES & SD & FS & US). exists d. split; [exact ES|]. split; [exact SD|]. intros cr Hc.
  set (ar := fun fa => fArea (nth fa chars dface)). set (nuH := fun el fa => get (fst (sideOf faEl nu el fa)) cr). set (left := fun el fa => fst (nth fa faEl (0, 0)) =? el).
  set (w := fun el fa => if wet bath el then huN dofs (nth fa chars dface) el cr else zero).
  set (c := fun el fa => (ar fa * (nuH el fa + (if left el fa then 1 else opp one) * w el fa))%t).
  (* volume of an element *)
  assert (EV : forall el, el < nEl -> (nth el vol zero * hOf d el cr)%t = (nth el vol zero * hOf dofs el cr + - dT * sigma nFas (fun ad => c el (nth ad (nth el elFa []) 0%nat)))%t).
  { intros el He. destruct (US el He cr Hc) as (U & _). rewrite U. clear U.
    assert (Z : sigma nFas (fun ad => ar (nth ad (nth el elFa []) 0%nat) * ((if left el (nth ad (nth el elFa []) 0%nat) then 1 else opp one) * w el (nth ad (nth el elFa []) 0%nat)))%t = zero).
    { unfold w. destruct (wet bath el).
      - unfold huN. rewrite (sigma_ext _ _ (fun ad => sigma nDi (fun di => huOf dofs el di cr * ((if left el (nth ad (nth el elFa []) 0%nat) then 1 else opp one) * (ar (nth ad (nth el elFa []) 0%nat) * nth di (fN (nth (nth ad (nth el elFa []) 0%nat) chars dface)) zero))))%t).
        + rewrite sigma_swap. rewrite (sigma_ext _ _ (fun _ => zero)); [apply sigma_zero|]. intros di Hd. rewrite sigma_mul. assert (X := CL el di He Hd). cbv zeta in X. unfold left, ar. rewrite X. ring.
        + intros ad Ha. cbv beta. rewrite <- !sigma_mul. apply sigma_ext. intros di Hd. ring.
      - rewrite (sigma_ext _ _ (fun _ => zero)); [apply sigma_zero|]. intros ad Ha. ring. }
    unfold c. rewrite (sigma_ext nFas (fun ad => ar (nth ad (nth el elFa []) 0%nat) * (nuH el (nth ad (nth el elFa []) 0%nat) + (if left el (nth ad (nth el elFa []) 0%nat) then 1 else opp one) * w el (nth ad (nth el elFa []) 0%nat)))%t
       (fun ad => ar (nth ad (nth el elFa []) 0%nat) * nuH el (nth ad (nth el elFa []) 0%nat) + ar (nth ad (nth el elFa []) 0%nat) * ((if left el (nth ad (nth el elFa []) 0%nat) then 1 else opp one) * w el (nth ad (nth el elFa []) 0%nat)))%t) by (intros; ring).
    rewrite sigma_add, Z. unfold ar, nuH. cbv zeta. field. apply VP; auto. }
  rewrite (sigma_ext nEl _ _ EV), sigma_add, sigma_mul.
  (* sum over the faces *)
  assert (ER : forall el, el < nEl -> sigma nFas (fun ad => c el (nth ad (nth el elFa []) 0%nat)) = sigma nFa (fun fa => if existsb (Nat.eqb fa) (nth el elFa []) then c el fa else zero)).
  { intros el He. assert (LF : length (nth el elFa []) = nFas). { pose proof (m_nFas _ _ _ MO) as X. rewrite Forall_forall in X. apply X, nth_In. rewrite (m_elFa _ _ _ MO). lia. }
    rewrite <- LF. apply sigma_list; [apply (m_nodup _ _ _ MO); auto|]. intros x Hx. apply (m_adj _ _ _ MO el x He). auto. }
  rewrite (sigma_ext nEl _ _ ER), sigma_swap.
  enough (EF : forall fa, fa < nFa -> sigma nEl (fun el => if existsb (Nat.eqb fa) (nth el elFa []) then c el fa else zero) =
     (let f := nth fa chars dface in let el := fst (nth fa faEl (0, 0)%nat) in if fOut f && wet bath el then fArea f * huN dofs f el cr else 0)%t) by (rewrite (sigma_ext nFa _ _ EF); ring).
  intros fa Hf. set (f := nth fa chars dface). set (l := fst (nth fa faEl (0, 0)%nat)). set (r := snd (nth fa faEl (0, 0)%nat)). cbv zeta.
  assert (HL : l < nEl) by (apply (m_left _ _ _ MO); auto).
  assert (SP : sigma nEl (fun el => if existsb (Nat.eqb fa) (nth el elFa []) then c el fa else zero) = (c l fa + (if bnd f then 0 else c r fa))%t).
  { destruct (bnd f) eqn:EB.
    - transitivity (sigma nEl (fun el => if el =? l then c el fa else zero)); [|rewrite sigma_one by auto; ring]. apply sigma_ext. intros el He. assert (X := m_adj _ _ _ MO el fa He). rewrite <- existsb_in in X. fold f l r in X. rewrite EB in X.
      destruct (existsb (Nat.eqb fa) (nth el elFa [])), (Nat.eqb_spec el l) as [E|N]; auto.
      + destruct X as (X & _). destruct (X eq_refl) as (_ & [Y|(Y & _)]); congruence.
      + destruct X as (_ & X). discriminate X. auto.
    - destruct (m_right _ _ _ MO fa Hf EB) as (HR & NE). fold r l in HR, NE.
      transitivity (sigma nEl (fun el => (if el =? l then c el fa else zero) + (if el =? r then c el fa else zero))%t); [|rewrite sigma_add, !sigma_one by auto; ring]. apply sigma_ext. intros el He. assert (X := m_adj _ _ _ MO el fa He). rewrite <- existsb_in in X. fold f l r in X. rewrite EB in X.
      destruct (existsb (Nat.eqb fa) (nth el elFa [])), (Nat.eqb_spec el l) as [E|N], (Nat.eqb_spec el r) as [E'|N']; try ring; try congruence.
      + destruct X as (X & _). destruct (X eq_refl) as (_ & [Y|(_ & Y)]); congruence.
      + destruct X as (_ & X). discriminate X. auto.
      + destruct X as (_ & X). discriminate X. auto. }
  rewrite SP. clear SP. assert (F := FS fa Hf cr Hc). cbv zeta in F. fold f l r in F. destruct F as (F1 & F2 & F3 & F4 & F5 & F6 & F7).
  assert (CL' : c l fa = (ar fa * (get (fst (fst (nth fa nu (zero2 zero nCr, zero2 zero nCr)))) cr + w l fa))%t). { unfold c, left, nuH, sideOf. fold l. rewrite Nat.eqb_refl. ring. }
  assert (CR' : bnd f = false -> c r fa = (ar fa * (get (fst (snd (nth fa nu (zero2 zero nCr, zero2 zero nCr)))) cr - w r fa))%t). { intros EB. destruct (m_right _ _ _ MO fa Hf EB) as (HR & NE). fold r l in HR, NE. unfold c, left, nuH, sideOf. fold l. destruct (Nat.eqb_spec l r); [congruence|]. ring. }
  rewrite CL'. unfold w in *. fold f in CR' |- *. change (ar fa) with (fArea f) in *. destruct (fOut f) eqn:EO; [|destruct (fRefl f) eqn:ER'].
  - assert (EB : bnd f = true) by (unfold bnd; rewrite EO; reflexivity). rewrite EB. cbn [andb]. destruct (wet bath l); [rewrite F3 by auto; ring|]. destruct F1 as (F1 & _); auto. rewrite F1. ring.
  - assert (EB : bnd f = true) by (unfold bnd; rewrite EO, ER'; reflexivity). rewrite EB. cbn [andb]. destruct (wet bath l); [rewrite F4 by auto; ring|]. destruct F1 as (F1 & _); auto. rewrite F1. ring.
  - assert (EB : bnd f = false) by (unfold bnd; rewrite EO, ER'; reflexivity). rewrite EB, CR' by auto. cbn [andb]. destruct (wet bath l), (wet bath r).
    + transitivity (fArea f * ((get (fst (fst (nth fa nu (zero2 zero nCr, zero2 zero nCr)))) cr + get (fst (snd (nth fa nu (zero2 zero nCr, zero2 zero nCr)))) cr) + huN dofs f l cr - huN dofs f r cr))%t; [ring|]. rewrite F5 by auto. ring.
    + rewrite F6 by auto. destruct F2 as (F2 & _); auto. rewrite F2. ring.
    + rewrite F7 by auto. destruct F1 as (F1 & _); auto. rewrite F1. ring.
    + destruct F2 as (F2 & _); auto. destruct F1 as (F1 & _); auto. rewrite F2, F1. ring.
Qed.

(** C57: dry elements keep their values *)
Theorem C57_dry dT faEl elFa chars vol bath out dofs : mesh_ok faEl chars elFa -> state_ok dofs bath -> water dofs bath -> length vol = nEl -> length out = nFa ->
  exists dofs', stepFV dT faEl elFa chars vol bath out dofs = Ok dofs' /\
  forall el cr, el < nEl -> cr < nCr -> wet bath el = false -> hOf dofs' el cr = hOf dofs el cr /\ forall di, di < nDi -> huOf dofs' el di cr = huOf dofs el di cr.
Proof.
  intros MO SO WA LV LO. destruct (step_ok dT faEl elFa chars vol bath out dofs MO SO WA LV LO) as (nu & d & _ & ES & SD & FS & US). exists d. split; [exact ES|]. intros el cr He Hc DR.
  assert (Z : forall ad, ad < nFas -> get (fst (sideOf faEl nu el (nth ad (nth el elFa []) 0))) cr = zero /\ get (snd (sideOf faEl nu el (nth ad (nth el elFa []) 0))) cr = zero).
  { intros ad Ha. set (fa := nth ad (nth el elFa []) 0). assert (LF : length (nth el elFa []) = nFas). { pose proof (m_nFas _ _ _ MO) as X. rewrite Forall_forall in X. apply X, nth_In. rewrite (m_elFa _ _ _ MO). lia. }
    assert (IN : In fa (nth el elFa [])) by (apply nth_In; lia). apply (m_adj _ _ _ MO el fa He) in IN as (Hf & IN). assert (F := FS fa Hf cr Hc). cbv zeta in F. destruct F as (F1 & F2 & _). unfold sideOf.
    destruct (Nat.eqb_spec (fst (nth fa faEl (0, 0))) el) as [E|N]; [apply F1; rewrite E; auto|]. destruct IN as [IN|(EB & IN)]; [congruence|]. apply F2; [auto|rewrite IN; auto]. }
  destruct (US el He cr Hc) as (U1 & U2). split.
  - rewrite U1. rewrite (sigma_ext _ _ (fun _ => zero)); [rewrite sigma_zero; ring|]. intros ad Ha. cbv zeta. rewrite (proj1 (Z ad Ha)). ring.
  - intros di Hd. rewrite U2 by auto. rewrite (sigma_ext _ _ (fun _ => zero)); [rewrite sigma_zero; ring|]. intros ad Ha. cbv zeta. rewrite (proj2 (Z ad Ha)). ring.
Qed.

(** water at rest: no momentum and constant surface in the wet elements *)
Definition at_rest (dofs : state) (bath : list T) (cr : nat) (level : T) : Prop :=
  forall el, el < nEl -> wet bath el = true -> (hOf dofs el cr + nth el bath zero = level)%t /\ forall di, di < nDi -> huOf dofs el di cr = zero.

Lemma huN_rest dofs bath cr level f el : at_rest dofs bath cr level -> el < nEl -> wet bath el = true -> huN dofs f el cr = zero.
Proof. intros R He W. unfold huN. rewrite (sigma_ext _ _ (fun _ => zero)); [apply sigma_zero|]. intros di Hd. destruct (R el He W) as (_ & X). rewrite X by auto. ring. Qed.

Lemma face_rest dofs bath f els cr level n : state_ok dofs bath -> water dofs bath -> length (fN f) = nDi -> fst els < nEl -> (bnd f = false -> snd els < nEl) -> cr < nCr -> at_rest dofs bath cr level ->
  nusFaceM f els dofs bath = Ok n -> get (fst (fst n)) cr = zero /\ get (snd (fst n)) cr = zero /\ get (fst (snd n)) cr = zero /\ get (snd (snd n)) cr = zero.
Proof.
  intros SO WA Ln Hl Hr Hc RE. unfold nusFace, qtsLr. destruct (side_ok (fN f) dofs bath (fst els) SO Hl Ln) as (qL & EL & VL). rewrite EL. cbn [bind].
  change (forall cr, cr < nCr -> get (fst qL) cr = hOf dofs (fst els) cr /\ get (snd qL) cr = huN dofs f (fst els) cr) in VL. assert (ZZ := zero2_get cr Hc).
  destruct (VL cr Hc) as (V1 & V2). assert (NL := huN_rest dofs bath cr level f (fst els) RE Hl). assert (WL := WA (fst els) cr Hl Hc).
  assert (ALL : forall hl hr ul ur bl br, get ul cr = zero -> get ur cr = zero -> (0 < get hl cr)%t -> (0 < get hr cr)%t -> (get hl cr + bl = get hr cr + br)%t -> let '(nL, nR) := fw hl hr ul ur bl br gDef in get (fst nL) cr = zero /\ get (snd nL) cr = zero /\ get (fst nR) cr = zero /\ get (snd nR) cr = zero).
  { intros hl hr ul ur bl br H1 H2 H3 H4 H5. apply C46_rest; auto. }
  unfold wet in *. destruct (fOut f) eqn:EO; [|destruct (fRefl f) eqn:ER].
  - cbn [negb andb bind]. destruct (ltb (nth (fst els) bath zero) zero) eqn:EB; cbn [negb andb fst snd].
    + match goal with |- context [fw ?a ?b ?c ?d ?e ?f ?g] => assert (Y := ALL a b c d e f); destruct (fw a b c d e f g) as (nL & nR) end. intros E. injection E as <-. cbn [fst snd]. rewrite V1, V2, NL in Y by auto. apply Y; auto.
    + intros E. injection E as <-. cbn [fst snd]. tauto.
  - cbn [negb andb bind]. destruct (ltb (nth (fst els) bath zero) zero) eqn:EB; cbn [negb andb fst snd].
    + match goal with |- context [fw ?a ?b ?c ?d ?e ?f ?g] => assert (Y := ALL a b c d e f); destruct (fw a b c d e f g) as (nL & nR) end. intros E. injection E as <-. cbn [fst snd]. rewrite !get_tab in Y by auto. rewrite V1, V2, NL in Y by auto. apply Y; auto; ring.
    + intros E. injection E as <-. cbn [fst snd]. tauto.
  - cbn [negb andb]. assert (BF : bnd f = false) by (unfold bnd; rewrite EO, ER; reflexivity). destruct (side_ok (fN f) dofs bath (snd els) SO (Hr BF) Ln) as (qR & E2 & VR). rewrite E2. cbn [bind].
    change (forall cr, cr < nCr -> get (fst qR) cr = hOf dofs (snd els) cr /\ get (snd qR) cr = huN dofs f (snd els) cr) in VR. destruct (VR cr Hc) as (V3 & V4).
    assert (NR := huN_rest dofs bath cr level f (snd els) RE (Hr BF)). assert (WR := WA (snd els) cr (Hr BF) Hc). assert (RL := RE (fst els) Hl). assert (RR := RE (snd els) (Hr BF)). unfold wet in *.
    destruct (ltb (nth (fst els) bath zero) zero) eqn:EB, (ltb (nth (snd els) bath zero) zero) eqn:EC; cbn [negb andb fst snd].
    + match goal with |- context [fw ?a ?b ?c ?d ?e ?f ?g] => assert (Y := ALL a b c d e f); destruct (fw a b c d e f g) as (nL & nR) end. intros E. injection E as <-. cbn [fst snd]. rewrite V1, V2, V3, V4, NL, NR in Y by auto. apply Y; auto. destruct (RL eq_refl) as (-> & _), (RR eq_refl) as (-> & _). reflexivity.
    + unfold mirror. match goal with |- context [fw ?a ?b ?c ?d ?e ?f ?g] => assert (Y := ALL a b c d e f); destruct (fw a b c d e f g) as (nL & nR) end. intros E. injection E as <-. cbn [fst snd] in *. rewrite !get_tab in Y by auto. rewrite V1, V2, NL in Y by auto. destruct Y as (? & ? & _ & _); auto; first [ring | tauto].
    + unfold mirror. match goal with |- context [fw ?a ?b ?c ?d ?e ?f ?g] => assert (Y := ALL a b c d e f); destruct (fw a b c d e f g) as (nL & nR) end. intros E. injection E as <-. cbn [fst snd] in *. rewrite !get_tab in Y by auto. rewrite V3, V4, NR in Y by auto. destruct Y as (_ & _ & ? & ?); auto; first [ring | tauto].
    + intros E. injection E as <-. cbn [fst snd]. tauto.
Qed.

(** C58: water at rest stays at rest, for every bathymetry, every arrangement of dry elements and all boundary conditions, whatever the other fused simulations do *)
Theorem C58_rest dT faEl elFa chars vol bath out dofs : mesh_ok faEl chars elFa -> state_ok dofs bath -> water dofs bath -> length vol = nEl -> length out = nFa ->
  exists dofs', stepFV dT faEl elFa chars vol bath out dofs = Ok dofs' /\
  forall cr level, cr < nCr -> at_rest dofs bath cr level -> forall el, el < nEl -> hOf dofs' el cr = hOf dofs el cr /\ forall di, di < nDi -> huOf dofs' el di cr = huOf dofs el di cr.
Proof.
  intros MO SO WA LV LO.
  assert (FP : forall fa, fa < nFa -> length (fN (nth fa chars dface)) = nDi). { intros fa Hf. pose proof (m_normal _ _ _ MO) as X. rewrite Forall_forall in X. apply X, nth_In. rewrite (m_chars _ _ _ MO). lia. }
  set (P := fun (fa : nat) (n : vec2 * vec2) => forall cr level, cr < nCr -> at_rest dofs bath cr level -> get (fst (fst n)) cr = zero /\ get (snd (fst n)) cr = zero /\ get (fst (snd n)) cr = zero /\ get (snd (snd n)) cr = zero).
  destruct (nusN_ok P 0 nFa faEl chars dofs bath out) as (nu & E & LN & VN); auto; [apply (m_faEl _ _ _ MO)|apply (m_chars _ _ _ MO)| |].
  { intros fa Hf. destruct (face_ok dofs bath (nth fa chars dface) (nth fa faEl (0, 0)) SO WA) as (n & En & _); [apply FP; lia|apply (m_left _ _ _ MO); lia|intros B; apply (m_right _ _ _ MO); [lia|auto]|].
    exists n. split; [exact En|]. intros cr level Hc R. eapply face_rest; eauto; [apply FP; lia|apply (m_left _ _ _ MO); lia|intros B; apply (m_right _ _ _ MO); [lia|auto]]. }
  destruct (update_ok 0 nEl dT faEl elFa chars vol nu dofs bath MO SO LV LN ltac:(lia)) as (d & E2 & SD & VD).
  exists d. unfold stepFV. rewrite E. cbn [bind]. split; [exact E2|]. intros cr level Hc R el He. destruct (VD el) as (_ & U). destruct (U ltac:(lia) cr Hc) as (U1 & U2).
  assert (Z : forall ad, ad < nFas -> get (fst (sideOf faEl nu el (nth ad (nth el elFa []) 0))) cr = zero /\ get (snd (sideOf faEl nu el (nth ad (nth el elFa []) 0))) cr = zero).
  { intros ad Ha. set (fa := nth ad (nth el elFa []) 0). assert (LF : length (nth el elFa []) = nFas). { pose proof (m_nFas _ _ _ MO) as X. rewrite Forall_forall in X. apply X, nth_In. rewrite (m_elFa _ _ _ MO). lia. }
    assert (IN : In fa (nth el elFa [])) by (apply nth_In; lia). apply (m_adj _ _ _ MO el fa He) in IN as (Hf & _). destruct (VN fa) as (X & _). destruct (X ltac:(lia) cr level Hc R) as (X1 & X2 & X3 & X4). unfold sideOf. destruct (fst (nth fa faEl (0, 0)) =? el); auto. }
  split.
  - rewrite U1. rewrite (sigma_ext _ _ (fun _ => zero)); [rewrite sigma_zero; ring|]. intros ad Ha. cbv zeta. rewrite (proj1 (Z ad Ha)). ring.
  - intros di Hd. rewrite U2 by auto. rewrite (sigma_ext _ _ (fun _ => zero)); [rewrite sigma_zero; ring|]. intros ad Ha. cbv zeta. rewrite (proj2 (Z ad Ha)). ring.
Qed.
End Fw.

Print Assumptions C46_conservation.
Print Assumptions C46_rest.
Print Assumptions C46_mirror.
Print Assumptions C46_wall.
Print Assumptions C57_water.
Print Assumptions C57_dry.
Print Assumptions C58_rest.

(** ** Instances *)
(** rational numbers *)
Definition qcltb (a b : Qc) : bool := (Qnum (this a) * QDen (this b) <? Qnum (this b) * QDen (this a))%Z.
Lemma qcltb_lt a b : qcltb a b = true <-> (a < b)%Qc.
Proof. unfold qcltb, Qclt, Qlt. apply Z.ltb_lt. Qed.
Lemma qcltb_le a b : qcltb a b = false <-> (b <= a)%Qc.
Proof. unfold qcltb, Qcle, Qle. apply Z.ltb_ge. Qed.
Definition qhalf : Qc := Q2Qc (1 # 2).

Lemma Qc_ofield : ofield 0%Qc 1%Qc qhalf Qcplus Qcminus Qcmult Qcdiv Qcopp Qcinv qcltb.
Proof.
  split; intros *; rewrite ?qcltb_lt, ?qcltb_le.
  - exact Qcft.
  - apply Qcle_refl.
  - apply Qclt_trans.
  - intros H1 H2. apply Qcle_antisym; auto.
  - intros H. apply Qclt_minus_iff. replace (b + c + - (a + c))%Qc with (b + - a)%Qc by ring. apply -> Qclt_minus_iff. exact H.
  - intros H1 H2. replace 0%Qc with (0 * b)%Qc by ring. apply Qcmult_lt_compat_r; auto.
  - apply Qc_is_canon. reflexivity.
Qed.

(** three elements in one dimension, two fused simulations: wall, water, water, dry element, outflow boundary. The first simulation is at rest, the second one is not. The square
    root is replaced by a positive function *)
Definition qi (z : Z) : Qc := Q2Qc (inject_Z z).
Definition exFaces : list (@face Qc) :=
  [{| fOut := false; fRefl := true; fN := [qi (-1)]; fArea := qi 1 |}; {| fOut := false; fRefl := false; fN := [qi 1]; fArea := qi 1 |};
   {| fOut := false; fRefl := false; fN := [qi 1]; fArea := qi 1 |}; {| fOut := true; fRefl := false; fN := [qi 1]; fArea := qi 1 |}].
Definition exFaEl : list (nat * nat) := [(0, 9); (0, 1); (1, 2); (2, 9)].
Definition exElFa : list (list nat) := [[0; 1]; [1; 2]; [2; 3]].
Definition exBath : list Qc := [qi (-3); qi (-2); qi 1].
Definition exDofs : list (list (list Qc)) := [[[qi 3; qi 3]; [qi 0; qi 3]]; [[qi 2; qi 1]; [qi 0; qi 0]]; [[qi 0; qi 0]; [qi 0; qi 7]]].
Definition exOut : list ((list Qc * list Qc) * (list Qc * list Qc)) := repeat (([], []), ([], [])) 4.
Definition exStep := stepFV 0%Qc 1%Qc qhalf Qcplus Qcminus Qcmult Qcdiv Qcopp qcltb (fun x => x) (qi 10) 2 1 2 3 4 (Q2Qc (1 # 100)) exFaEl exElFa exFaces [qi 1; qi 2; qi 1] exBath exOut exDofs.

Lemma dec_lt (P : nat -> Prop) n : Forall P (seq 0 n) -> forall k, (k < n)%nat -> P k.
Proof. rewrite Forall_forall. intros H k Hk. apply H, in_seq. lia. Qed.

Example C57_ex : mesh_ok 0%Qc 1 2 3 4 exFaEl exFaces exElFa /\ closed 0%Qc 1%Qc Qcplus Qcmult Qcopp 1 2 3 exFaEl exFaces exElFa /\ state_ok 1 3 exDofs exBath /\ water 0%Qc qcltb 2 3 exDofs exBath /\
  at_rest 0%Qc Qcplus qcltb 1 3 exDofs exBath 0 (qi 0) /\
  exists d, exStep = Ok d /\ hOf 0%Qc d 0 0 = qi 3 /\ hOf 0%Qc d 1 0 = qi 2 /\ hOf 0%Qc d 0 1 <> qi 3 /\ (hOf 0%Qc d 0 1 + qi 2 * hOf 0%Qc d 1 1 = qi 5)%Qc.
Proof.
  split; [|split; [|split; [|split; [|split]]]].
  - split; try reflexivity; try (repeat constructor; fail).
    + apply dec_lt. cbn. repeat constructor.
    + intros fa H. destruct fa as [|[|[|[|]]]]; try lia; cbn; intros; try discriminate; lia.
    + intros el H. destruct el as [|[|[|]]]; try lia; cbn; repeat (constructor; cbn; [lia|]); constructor.
    + intros el fa H. destruct el as [|[|[|]]]; try lia; cbn [nth exElFa In]; (split; [intros [<-|[<-|[]]]; cbn; (split; [lia|]); auto|]);
      intros (H1 & H2); destruct fa as [|[|[|[|]]]]; try lia; cbn in H2; destruct H2 as [H2|(H2 & H3)]; try discriminate; try lia; auto.
  - intros el di H1 H2. assert (di = 0%nat) as -> by lia. destruct el as [|[|[|]]]; try lia; apply Qc_is_canon; reflexivity.
  - repeat split; repeat constructor.
  - intros el cr H1 H2. destruct el as [|[|[|]]]; try lia; destruct cr as [|[|]]; try lia; cbn; intros; try reflexivity; discriminate.
  - intros el H1. destruct el as [|[|[|]]]; try lia; cbn; intros W; try discriminate; (split; [apply Qc_is_canon; reflexivity|]); intros di H2; assert (di = 0%nat) as -> by lia; reflexivity.
  - eexists. split; [vm_compute; reflexivity|]. repeat split; try (apply Qc_is_canon; reflexivity). intros X. apply (f_equal this) in X. vm_compute in X. discriminate.
Qed.

(** the theorem applied to the example *)
Example C57_ex_use : exists d, exStep = Ok d /\ state_ok 1 3 d exBath.
Proof.
  destruct C57_ex as (H1 & H2 & H3 & H4 & _). destruct (C57_water _ _ _ _ _ _ _ _ _ _ Qc_ofield (fun x => x) (qi 10) (fun _ H => H) eq_refl 2 1 2 3 4 (Q2Qc (1 # 100)) exFaEl exElFa exFaces [qi 1; qi 2; qi 1] exBath exOut exDofs H1 H2 H3 H4 eq_refl) as (d & E & S & _); [|reflexivity|eauto].
  intros el He. destruct el as [|[|[|]]]; try lia; discriminate.
Qed.
