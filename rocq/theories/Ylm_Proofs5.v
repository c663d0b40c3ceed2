(** Witnesses for the harmonics. *)
From Coq Require Import ZArith QArith Qreals Reals List Bool Lra Lia.
From Coquelicot Require Import Coquelicot.
From Verif Require Import Base Vec3_Model Ylm_Model Ylm_Spec Poly_Proofs Ylm_Proofs.
Import ListNotations.
Import Vec3_Model.
Open Scope R_scope.

Ltac yval := unfold Ylm; repeat match goal with |- context[ylmE ?a] => let b := eval vm_compute in a in progress change (ylmE a) with (ylmE b) end; cbn [ylmE ev vecEnv c0 c1 c2]; unfold Q2R; cbn [Qnum Qden].
Lemma pole_unit : isUnit (V 0 0 1). Proof. unfold isUnit. cbn. ring. Qed.
Lemma slanted_unit : isUnit (V (3/5) 0 (4/5)). Proof. unfold isUnit. cbn. lra. Qed.
Lemma slanted_value : Ylm 2 1 (V (3/5) 0 (4/5)) = 1.0925484305920792 * (12 / 25).
Proof. yval. lra. Qed.
Lemma pole_axis l : (0 <= l <= 6)%Z -> Ylm l 0 (V 0 0 1) > 28 / 100.
Proof.
  intros Hl. assert (l = 0 \/ l = 1 \/ l = 2 \/ l = 3 \/ l = 4 \/ l = 5 \/ l = 6)%Z as D by lia.
  repeat (destruct D as [-> | D]); try subst l; yval; lra.
Qed.
Lemma product_beyond : exists l1 m1 l2 m2 q, supported l1 m1 /\ supported l2 m2 /\ isUnit q /\ expandYlmProd_lm l1 m1 l2 m2 = [] /\ Ylm l1 m1 q * Ylm l2 m2 q > 7 / 100.
Proof.
  exists 4%Z, 0%Z, 0%Z, 0%Z, (V 0 0 1). split; [split; lia|]. split; [split; lia|]. split; [exact pole_unit|]. split; [reflexivity|].
  pose proof (pole_axis 4 ltac:(lia)) as A. pose proof (pole_axis 0 ltac:(lia)) as B. nra.
Qed.
Lemma product_example : expandYlmProd_lm 1 0 1 0 = [(0, 0, 0.28209479177387814%Q); (2, 0, 0.252313252202016%Q)]%Z.
Proof. reflexivity. Qed.
Lemma prime_example q : c2 (YlmPrime 1 0 q) = sqrt 3 * 0.28209479177387814 /\ c0 (YlmPrime 1 0 q) = 0.
Proof.
  unfold YlmPrime. cbn [c0 c2]. let v := eval vm_compute in (primeZ 1 0) in change (primeZ 1 0) with v. let v := eval vm_compute in (primeX 1 0) in change (primeX 1 0) with v.
  unfold sumTerms. cbn [fold_left]. split; [|reflexivity]. unfold termVal. cbn [t_factor t_roots t_l t_m fold_right]. yval. replace (3 * / 1) with 3 by lra. lra.
Qed.
Lemma ylm_example : isUnit (V 0 0 1) /\ isUnit (V (3/5) 0 (4/5)) /\ supported 2 1 /\ Ylm 2 1 (V (3/5) 0 (4/5)) = 1.0925484305920792 * (12 / 25).
Proof. split; [exact pole_unit|]. split; [exact slanted_unit|]. split; [split; lia|exact slanted_value]. Qed.
