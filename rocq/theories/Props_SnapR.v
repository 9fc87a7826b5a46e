(** Property C88, continued: mode 0, which the files show, is the average of the solution in the element. *)
From Coq Require Import List ZArith Reals Lra Lia Bool.
From Verif Require Import BasisSpec BasisInt BasisOrth Basis BasisModes BasisSpan EdgePreM EdgePreP.
Local Open Scope R_scope.

Lemma mode0 el n : (1 <= n)%nat -> modeAt el n 0 = (0, 0, 0)%nat.
Proof. intros H. destruct n as [|n]; [lia|]. destruct el; reflexivity. Qed.
Lemma hom0 a u v : hom 0 a u v = 1.
Proof. unfold hom. cbn [sum_f_R0 pow Nat.sub Nat.add]. rewrite Nat.add_0_r. unfold C. rewrite !Nat.sub_0_r. change (INR (fact 0)) with 1. field. apply INR_fact_neq_0. Qed.
Lemma phi0 el x y z : phi el (0, 0, 0)%nat x y z = 1.
Proof. destruct el; cbn [phi]; rewrite ?hom0; ring. Qed.
Lemma modes_pos el n : (1 <= n)%nat -> (0 < nMds el n)%nat.
Proof.
  intros H. destruct el; cbn [nMds]; nia.
Qed.

(** The integral of the solution over the element is the coefficient of mode 0 times the volume. *)
Theorem C88_average el n ms I V : (1 <= n)%nat ->
  intEl el (fun x y z => rsum (nMds el n) (fun b => ms b * phi el (modeAt el n b) x y z)) I ->
  intEl el (fun _ _ _ => 1) V -> 0 < V /\ ms 0%nat = I / V.
Proof.
  intros Hn HI HV. pose proof (modes_pos el n Hn) as HP.
  set (f := fun x y z => rsum (nMds el n) (fun b => ms b * phi el (modeAt el n b) x y z)) in *.
  pose proof (int_span el n f ms 0 HP (fun x y z => eq_refl)) as S.
  assert (B : forall x y z, bas el n 0 x y z = 1). { intros. unfold bas. rewrite (mode0 el n Hn). apply phi0. }
  assert (E1 : I = ms 0%nat * nb el n 0).
  { apply (intEl_unique el f); [exact HI|]. apply (intEl_ext el (fun x y z => bas el n 0 x y z * f x y z)); [|exact S]. intros. rewrite B. ring. }
  assert (E2 : V = nb el n 0).
  { apply (intEl_unique el (fun _ _ _ => 1)); [exact HV|]. pose proof (bas_orth el n 0 0 HP HP) as O. cbn [Nat.eqb] in O.
    apply (intEl_ext el (fun x y z => bas el n 0 x y z * bas el n 0 x y z)); [|exact O]. intros. rewrite !B. ring. }
  assert (P : 0 < nb el n 0) by apply norm2_pos. rewrite E1, E2. split; [exact P|]. field. lra.
Qed.
(** such integrals exist for every solution *)
Example average_ex : exists I V, intEl Tet (fun x y z => rsum (nMds Tet 3) (fun b => INR (S b) * phi Tet (modeAt Tet 3 b) x y z)) I /\ intEl Tet (fun _ _ _ => 1) V.
Proof.
  set (f := fun x y z => rsum (nMds Tet 3) (fun b => INR (S b) * phi Tet (modeAt Tet 3 b) x y z)).
  assert (HP : (0 < nMds Tet 3)%nat) by (cbn; lia). pose proof (int_span Tet 3 f (fun b => INR (S b)) 0 HP (fun x y z => eq_refl)) as S.
  pose proof (bas_orth Tet 3 0 0 HP HP) as O. assert (B : forall x y z, bas Tet 3 0 x y z = 1). { intros. unfold bas. rewrite (mode0 Tet 3) by lia. apply phi0. }
  eexists. eexists. split.
  - eapply intEl_ext; [|exact S]. intros. cbn beta. rewrite B. ring.
  - eapply intEl_ext; [|exact O]. intros. cbn beta. rewrite !B. ring.
Qed.
Print Assumptions C88_average.
