(** Derivatives of polynomials on the reference elements. *)
From Coq Require Import List ZArith Reals Lra Lia Bool.
From Verif Require Import BasisSpec BasisInt BasisOrth Basis BasisModes BasisSpan.
Import ListNotations.
Local Open Scope R_scope.

Definition wc (el : refEl) (c : nat) (x y z : R) : R :=
  match el, c with
  | (Line | Quad | Hex), O => 1 - x | (Quad | Hex), 1%nat => 1 - y | Hex, 2%nat => 1 - z
  | Tria, O => 1 - x - y | Tria, 1%nat => 1 - y
  | Tet, O => 1 - x - y - z | Tet, 1%nat => 1 - y - z | Tet, 2%nat => 1 - z
  | _, _ => 1
  end.
Lemma wmon_wc el i j k x y z : wmon el (i, j, k) x y z = wc el 0 x y z ^ i * wc el 1 x y z ^ j * wc el 2 x y z ^ k.
Proof. destruct el; cbn [wmon wc]; rewrite ?pow1; ring. Qed.
Definition slope (el : refEl) (di c : nat) : R :=
  match el with Line | Quad | Hex => if (di =? c)%nat && (c <? dim el)%nat then -1 else 0 | Tria | Tet => if (c <=? di)%nat && (c <? dim el)%nat then -1 else 0 end.
Lemma aff_lim b x : derivable_pt_lim (fun t => b - t) x (-1).
Proof. replace (-1) with (0 - 1) by ring. apply (derivable_pt_lim_minus (fun _ => b) id); [apply derivable_pt_lim_const|apply derivable_pt_lim_id]. Qed.
Lemma wc_partial el di c x y z : (di < dim el)%nat -> (c < 3)%nat -> partial (wc el c) di x y z (slope el di c).
Proof.
  intros Hd Hc. destruct el; cbn [dim] in Hd; destruct di as [|[|[|di]]]; try lia; destruct c as [|[|[|c]]]; try lia; cbn [partial wc slope dim Nat.eqb Nat.leb Nat.ltb andb];
  try apply derivable_pt_lim_const; try apply aff_lim;
  first [ apply (dlim_ext (fun t => (1 - y) - t)); [intros; ring|apply aff_lim] | apply (dlim_ext (fun t => (1 - x) - t)); [intros; ring|apply aff_lim] | apply (dlim_ext (fun t => (1 - z) - t)); [intros; ring|apply aff_lim]
        | apply (dlim_ext (fun t => (1 - y - z) - t)); [intros; ring|apply aff_lim] | apply (dlim_ext (fun t => (1 - x - z) - t)); [intros; ring|apply aff_lim] | apply (dlim_ext (fun t => (1 - x - y) - t)); [intros; ring|apply aff_lim] ].
Qed.
Lemma pow_lim g t s i : derivable_pt_lim g t s -> derivable_pt_lim (fun t => g t ^ i) t (INR i * g t ^ pred i * s).
Proof. intros H. apply (derivable_pt_lim_comp g (fun y => y ^ i)); [exact H|]. apply derivable_pt_lim_pow. Qed.
Lemma dprod f g h t a b c i j k : derivable_pt_lim f t a -> derivable_pt_lim g t b -> derivable_pt_lim h t c ->
  derivable_pt_lim (fun t => f t ^ i * g t ^ j * h t ^ k) t (a * INR i * (f t ^ pred i * g t ^ j * h t ^ k) + b * INR j * (f t ^ i * g t ^ pred j * h t ^ k) + c * INR k * (f t ^ i * g t ^ j * h t ^ pred k)).
Proof.
  intros F G H. pose proof (derivable_pt_lim_mult _ _ _ _ _ (pow_lim f t a i F) (pow_lim g t b j G)) as D. pose proof (derivable_pt_lim_mult _ _ _ _ _ D (pow_lim h t c k H)) as D'. unfold mult_fct in D'.
  match type of D' with derivable_pt_lim _ _ ?v => replace v with (a * INR i * (f t ^ pred i * g t ^ j * h t ^ k) + b * INR j * (f t ^ i * g t ^ pred j * h t ^ k) + c * INR k * (f t ^ i * g t ^ j * h t ^ pred k)) in D' by ring end. exact D'.
Qed.
Definition dec (c : nat) (e : mode) : mode := let '(i, j, k) := e in match c with O => (pred i, j, k) | 1%nat => (i, pred j, k) | _ => (i, j, pred k) end.
Definition cmp (c : nat) (e : mode) : nat := let '(i, j, k) := e in match c with O => i | 1%nat => j | _ => k end.
Definition dmon (el : refEl) (di : nat) (e : mode) (x y z : R) : R := rsum 3 (fun c => slope el di c * INR (cmp c e) * wmon el (dec c e) x y z).
Lemma mon_partial el di e x y z : (di < dim el)%nat -> partial (wmon el e) di x y z (dmon el di e x y z).
Proof.
  intros Hd. destruct e as ((i & j) & k). unfold dmon. cbn [rsum cmp dec]. rewrite Rplus_0_l, !wmon_wc.
  pose proof (wc_partial el di 0 x y z Hd ltac:(lia)) as A. pose proof (wc_partial el di 1 x y z Hd ltac:(lia)) as B. pose proof (wc_partial el di 2 x y z Hd ltac:(lia)) as D.
  destruct di as [|[|di]]; cbn [partial] in *.
  - apply (dlim_ext (fun t => wc el 0 t y z ^ i * wc el 1 t y z ^ j * wc el 2 t y z ^ k)); [intros; now rewrite wmon_wc|]. exact (dprod _ _ _ _ _ _ _ i j k A B D).
  - apply (dlim_ext (fun t => wc el 0 x t z ^ i * wc el 1 x t z ^ j * wc el 2 x t z ^ k)); [intros; now rewrite wmon_wc|]. exact (dprod _ _ _ _ _ _ _ i j k A B D).
  - apply (dlim_ext (fun t => wc el 0 x y t ^ i * wc el 1 x y t ^ j * wc el 2 x y t ^ k)); [intros; now rewrite wmon_wc|]. exact (dprod _ _ _ _ _ _ _ i j k A B D).
Qed.
(** functions with a partial derivative everywhere *)
Definition isder (di : nat) (f g : R -> R -> R -> R) : Prop := forall x y z, partial f di x y z (g x y z).
Lemma partial_ext f g di x y z d : (forall x y z, f x y z = g x y z) -> partial f di x y z d -> partial g di x y z d.
Proof. intros E. destruct di as [|[|di]]; cbn; apply dlim_ext; intros; apply E. Qed.
Lemma partial_add f g di x y z d e : partial f di x y z d -> partial g di x y z e -> partial (fun x y z => f x y z + g x y z) di x y z (d + e).
Proof. destruct di as [|[|di]]; cbn; [apply (derivable_pt_lim_plus (fun t => f t y z))|apply (derivable_pt_lim_plus (fun t => f x t z))|apply (derivable_pt_lim_plus (fun t => f x y t))]. Qed.
Lemma partial_scal c f di x y z d : partial f di x y z d -> partial (fun x y z => c * f x y z) di x y z (c * d).
Proof. destruct di as [|[|di]]; cbn; [apply (derivable_pt_lim_scal (fun t => f t y z))|apply (derivable_pt_lim_scal (fun t => f x t z))|apply (derivable_pt_lim_scal (fun t => f x y t))]. Qed.
Lemma partial_const c di x y z : partial (fun _ _ _ => c) di x y z 0. Proof. destruct di as [|[|di]]; cbn; apply derivable_pt_lim_const. Qed.
Lemma partial_unique f di x y z d e : partial f di x y z d -> partial f di x y z e -> d = e. Proof. destruct di as [|[|di]]; cbn; apply uniqueness_limite. Qed.
Lemma partial_rsum n (f : nat -> R -> R -> R -> R) d di x y z : (forall i, (i < n)%nat -> partial (f i) di x y z (d i)) -> partial (fun x y z => rsum n (fun i => f i x y z)) di x y z (rsum n d).
Proof. induction n as [|n IH]; intros H; cbn [rsum]; [apply partial_const|]. apply (partial_add (fun x y z => rsum n (fun i => f i x y z))); [apply IH; intros; apply H; lia|apply H; lia]. Qed.
Lemma wp_der el (ok ok' : mode -> Prop) di f : (di < dim el)%nat -> (forall e c, ok e -> (0 < cmp c e)%nat -> (c < 3)%nat -> ok' (dec c e)) -> wpoly el ok f -> exists g, isder di f g /\ wpoly el ok' g.
Proof.
  intros Hd H. induction 1 as [|e c He|f g Hf (f' & F & WF) Hg (g' & G & WG)|f g E Hf (f' & F & WF)].
  - exists (fun _ _ _ => 0). split; [|apply wp_zero]. intros x y z. apply partial_const.
  - exists (fun x y z => c * dmon el di e x y z). split; [intros x y z; apply partial_scal, mon_partial, Hd|]. apply wp_scal. unfold dmon. apply wp_rsum. intros k Hk. destruct (Nat.eq_dec (cmp k e) 0) as [Z|Z].
    + apply (wp_ext el ok' (fun _ _ _ => 0)); [|apply wp_zero]. intros. rewrite Z. cbn. ring.
    + apply wp_mon. apply H; auto; lia.
  - exists (fun x y z => f' x y z + g' x y z). split; [|now apply wp_add]. intros x y z. now apply partial_add.
  - exists f'. split; [|exact WF]. intros x y z. exact (partial_ext f g di x y z _ E (F x y z)).
Qed.
(** derivatives of the polynomials of an order are polynomials of this order *)
Lemma okE_dec el n e c : okE el n e -> (c < 3)%nat -> okE el n (dec c e). Proof. destruct e as ((i & j) & k). intros H Hc. destruct c as [|[|[|c]]]; [| | |lia]; destruct el; cbn [dec okE] in *; lia. Qed.
Lemma der_span el n di m : (di < dim el)%nat -> okE el n m -> exists g, isder di (phi el m) g /\ inSpan el n g.
Proof.
  intros Hd H. destruct (wp_der el (okE el n) (okE el n) di (phi el m) Hd) as (g & G & W); [intros; now apply okE_dec|apply phi_wp; now rewrite (nrm_ok el n m H)|]. exists g. split; [exact G|now apply span].
Qed.
(** in total degree, derivatives lower the degree; functions of lower degree are orthogonal *)
Lemma phi_low el m : hier el -> wpoly el (lowE (S (deg (nrm el m)))) (phi el m).
Proof.
  intros Hh. apply (wp_ext el _ (fun x y z => msum el m (fun t => tc el m t * wmon el (te el m t) x y z))); [intros; now rewrite <- phi_sum|].
  apply wp_msum. destruct m as ((p & q) & r). intros i j k. destruct (nrm el (p, q, r)) as ((p' & q') & r') eqn:E. intros Hi Hj Hk. apply wp_mon. unfold lowE. destruct el; try contradiction; cbn [nrm te deg] in *; injection E as <- <- <-; lia.
Qed.
Lemma low_orth el m d f : hier el -> (d <= deg (nrm el m))%nat -> wpoly el (lowE d) f -> intEl el (fun x y z => phi el m x y z * f x y z) 0.
Proof.
  intros Hh L. induction 1 as [|e c He|f g Hf IHf Hg IHg|f g E Hf IHf].
  - refine (intEl_ext el _ _ _ _ (intEl_zero el)). intros. ring.
  - pose proof (intEl_scal el c _ _ (int_mon el m e)) as H. rewrite tval_low, Rmult_0_r in H; [|destruct el; auto|unfold lowE in He; lia]. refine (intEl_ext el _ _ _ _ H). intros. ring.
  - pose proof (intEl_add el _ _ _ _ IHf IHg) as H. rewrite Rplus_0_r in H. refine (intEl_ext el _ _ _ _ H). intros. ring.
  - refine (intEl_ext el _ _ _ _ IHf). intros. now rewrite E.
Qed.
Lemma der_low el di m : hier el -> (di < dim el)%nat -> exists g, isder di (phi el m) g /\ wpoly el (lowE (deg (nrm el m))) g.
Proof.
  intros Hh Hd. apply (wp_der el (lowE (S (deg (nrm el m)))) _ di (phi el m) Hd); [|now apply phi_low].
  intros ((i & j) & k) c He Hc Hc3. unfold lowE in *. destruct c as [|[|[|c]]]; [| | |lia]; cbn [dec cmp deg] in *; lia.
Qed.
