(** C105, C106: radial quadrature weights and radial Bessel transforms. *)
From Coq Require Import Reals List Bool Arith Lra Lia.
From Coquelicot Require Import Coquelicot.
From Verif Require Import Bessel_Model Radial_Model Radial_Spec Radial_Proofs Radial_Proofs2.
From Verif Require Bessel_Proofs3.
Local Open Scope R_scope.

(** Every natural spline through the samples is integrated exactly. *)
Theorem C105_exact : forall n r r' dr f s, initWeights n r = Some (r', dr) -> natural_spline n r' f s ->
  total n (fun j => f j * (r' j * r' j * dr j)) = spline_integral n r' f s.
Proof. exact init_exact. Qed.
Print Assumptions C105_exact.
Example C105_exact_example : exists dr, initWeights 3 r3 = Some (r3, dr) /\ natural_spline 3 r3 (unit 1) spline3.
Proof. exists (weight 3 r3). split; [exact r3_init|exact spline3_ok]. Qed.

(** There is such a spline for any samples. *)
Theorem C105_exists : forall n r r' dr f, initWeights n r = Some (r', dr) -> exists s, natural_spline n r' f s.
Proof. exact init_exists. Qed.
Print Assumptions C105_exists.
Example C105_exists_example : exists dr, initWeights 3 r3 = Some (r3, dr).
Proof. exists (weight 3 r3). exact r3_init. Qed.

(** Linear functions are integrated exactly from the origin, before the first location too. *)
Theorem C105_linear : forall n r r' dr a b, initWeights n r = Some (r', dr) ->
  total n (fun j => (a + b * r' j) * (r' j * r' j * dr j)) = a * r' (n - 1)%nat ^ 3 / 3 + b * r' (n - 1)%nat ^ 4 / 4.
Proof. exact init_linear. Qed.
Print Assumptions C105_linear.
Example C105_linear_example : r3 1%nat * r3 1%nat * weight 3 r3 1 = 613 / 120.
Proof. exact w3. Qed.

(** Nothing is divided by zero: the locations and all pivots of the elimination are positive. *)
Theorem C105_pivots : forall n r r' dr y i, initWeights n r = Some (r', dr) -> (i < n)%nat -> 0 < r' i /\ 0 < t_b (eliminate n (assemble n r' y)) i.
Proof. exact init_pivots. Qed.
Print Assumptions C105_pivots.
Example C105_pivots_example : exists dr, initWeights 3 r3 = Some (r3, dr) /\ (2 < 3)%nat.
Proof. exists (weight 3 r3). split; [exact r3_init|lia]. Qed.

(** Increasing locations from zero on are accepted, and only a first location at zero is moved. *)
Theorem C105_defined : forall n r, (2 <= n)%nat -> 0 <= r 0%nat -> (forall i, (S i < n)%nat -> r i < r (S i)) ->
  exists r' dr, initWeights n r = Some (r', dr) /\ (0 < r 0%nat -> r' = r) /\ (forall i, (0 < i)%nat -> r' i = r i) /\ 0 <= r' 0%nat - r 0%nat <= / 10 ^ 6 * r 1%nat.
Proof. exact init_defined. Qed.
Print Assumptions C105_defined.
Example C105_defined_example : (2 <= 2)%nat /\ 0 <= INR 0 /\ forall i, (S i < 2)%nat -> INR i < INR (S i).
Proof. split; [lia|]. split; [cbn; lra|]. intros i _. apply lt_INR. lia. Qed.

(** On a logarithmic grid the transform is Simpson's rule: any cubics in ln r through the integrand at three successive samples are integrated exactly. *)
Theorem C106_simpson : forall n r dr f l G u0 g p, (3 <= n)%nat -> (forall i, (i < n)%nat -> r i = exp (u0 + INR i * g)) -> logGrid n r g = Some dr ->
  let N := ((n - 1) / 2)%nat in
  (forall k i, (k < N)%nat -> (2 * k <= i <= 2 * k + 2)%nat -> cval (p k) (u0 + INR i * g) = r i ^ 3 * (f i * bessel_jl l (G * r i))) ->
  transform n r dr f l G = 4 * PI * total N (fun k => RInt (cval (p k)) (u0 + INR (2 * k) * g) (u0 + INR (2 * k + 2) * g)).
Proof. exact log_simpson. Qed.
Print Assumptions C106_simpson.
Example C106_simpson_example : exists r f, (forall i, (i < 3)%nat -> r i = exp (0 + INR i * 1)) /\ logGrid 3 r 1 = Some (fun i => r i * 1) /\
  (forall k i, (k < 1)%nat -> (2 * k <= i <= 2 * k + 2)%nat -> cval (Cub 1 0 0 0) (0 + INR i * 1) = r i ^ 3 * (f i * bessel_jl 0 (0 * r i))).
Proof.
  exists (fun i => exp (0 + INR i * 1)), (fun i => / exp (0 + INR i * 1) ^ 3). split; [auto|]. split; [apply log_defined with (u0 := 0); auto|].
  intros k i _ _. rewrite Rmult_0_l, Bessel_Proofs3.at_zero. unfold cval. cbn [k0 k1 k2 k3 Nat.eqb]. pose proof (exp_pos (0 + INR i * 1)). field. lra.
Qed.

(** Exactly logarithmic locations are accepted. *)
Theorem C106_defined : forall n r u0 g, (forall i, (i < n)%nat -> r i = exp (u0 + INR i * g)) -> logGrid n r g = Some (fun i => r i * g).
Proof. exact log_defined. Qed.
Print Assumptions C106_defined.
Example C106_defined_example : forall i, (i < 5)%nat -> (fun i => exp (1 + INR i * 2)) i = exp (1 + INR i * 2).
Proof. reflexivity. Qed.

(** With an even number of samples the last one is not used. *)
Theorem C106_even_drops : forall n r dr f f' l G, Nat.even n = true -> (forall i, (i < n - 1)%nat -> f i = f' i) -> transform n r dr f l G = transform n r dr f' l G.
Proof. exact even_last. Qed.
Print Assumptions C106_even_drops.
Example C106_even_example : Nat.even 4 = true /\ (forall i, (i < 4 - 1)%nat -> (fun _ => 0) i = unit 3 i) /\ unit 3 3%nat <> 0.
Proof.
  split; [reflexivity|]. split; [|unfold unit, upd; cbn; lra]. intros i H. do 3 (destruct i as [|i]; [reflexivity|]). lia.
Qed.

(** With weights that are complete already, the alternating factors of the transform remain: a constant misses its integral by a tenth. *)
Theorem C106_weights_refuted : exists n r dr, initWeights n r = Some (r, dr) /\ Nat.odd n = true /\
  4 * PI * total n (fun j => 1 * (r j * r j * dr j)) = 4 * PI * (r (n - 1)%nat ^ 3 / 3) /\
  transform n r dr (fun _ => 1) 0 0 < (1 - 9 / 100) * (4 * PI * (r (n - 1)%nat ^ 3 / 3)).
Proof. exact transform_refuted. Qed.
Print Assumptions C106_weights_refuted.
