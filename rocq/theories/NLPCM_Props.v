(** C47: nonlinear solvent response: exact derivatives and bracketed inversions. *)
From Coq Require Import ZArith Reals List Lia Lra Psatz.
From Coquelicot Require Import Coquelicot.
From Verif Require Import Base Vec3_Model Vec3_Facts NLPCM_Model NLPCM_Proofs NLPCM_Proofs2.
Import ListNotations.
Open Scope R_scope.

(** ** ionic screening *)
Theorem C47_hard_sphere_derivative : forall xp xm, 0 < x0 xp xm -> x0 xp xm < 1 -> forall x, x < 1 ->
  is_derive (fun x : R => fst (fHS xp xm x)) x (snd (fHS xp xm x)).
Proof. exact fHS_derive. Qed.
Print Assumptions C47_hard_sphere_derivative.
(** the bisection terminates and returns a packing fraction within 1e-13 of an exact self-consistent one *)
Theorem C47_packing_bisection : forall xp xm, 0 <= xp -> 0 <= xm -> 0 < x0 xp xm -> x0 xp xm < 1 -> forall V,
  exists N x xs, (forall n, (N <= n)%nat -> x_from_V xp xm n V = Some x) /\
    0 < x < 1 /\ 0 < xs < 1 /\ rootFunc xp xm xs V = 0 /\ Rabs (x - xs) <= / 10 ^ 13.
Proof. exact xV_correct. Qed.
Print Assumptions C47_packing_bisection.
Theorem C47_packing_unique : forall xp xm, 0 < x0 xp xm -> x0 xp xm < 1 -> forall V a b, x0 xp xm <= 1/3 ->
  0 < a < 1 -> 0 < b < 1 -> rootFunc xp xm a V = 0 -> rootFunc xp xm b V = 0 -> a = b.
Proof. exact root_unique. Qed.
Print Assumptions C47_packing_unique.
(** the tabulated energy, at the self-consistent packing fraction XS V, has the (dimensionless) ionic charge density
    c_minus - c_plus as its derivative with respect to the potential *)
Theorem C47_ion_energy_derivative : forall xp xm, 0 < x0 xp xm -> x0 xp xm < 1 -> forall XS,
  (forall V, 0 < XS V < 1 /\ rootFunc xp xm (XS V) V = 0) -> forall V, x0 xp xm <= 1/3 ->
  is_derive (fun V : R => ionEnergy xp xm V (XS V)) V
    (exp (V - snd (fHS xp xm (XS V)) * xm) - exp (- V - snd (fHS xp xm (XS V)) * xp)).
Proof. exact ion_derive. Qed.
Print Assumptions C47_ion_energy_derivative.
(** the mapping of potentials to table positions is inverted exactly *)
Theorem C47_potential_map : forall V, 0 < Vmapped1 V < 2 /\ V_of_mapped (Vmapped1 V - 1) = V.
Proof. exact (fun V => conj (mapped_range V) (mapped_inverse V)). Qed.
Print Assumptions C47_potential_map.
Theorem C47_potential_unmap : forall Vm, -1 < Vm < 1 -> Vmapped1 (V_of_mapped Vm) = Vm + 1.
Proof. exact unmapped_inverse. Qed.
Print Assumptions C47_potential_unmap.
(** whatever smooth positive lookup is used, A_phi and A_s are the exact derivatives of the accumulated A *)
Theorem C47_screening_gradient : forall NT ZbyT g g' s phi A Ap As, (forall y, 0 < y < 2 -> is_derive g y (g' y) /\ g y <> 0) ->
  let app phi := screening_apply NT ZbyT g g' s phi A Ap As in
  is_derive (fun phi : R => fst (fst (app phi))) phi (snd (fst (app phi)) - Ap) /\
  is_derive (fun s : R => fst (fst (screening_apply NT ZbyT g g' s phi A Ap As))) s (snd (app phi) - As).
Proof. exact screening_derive. Qed.
Print Assumptions C47_screening_gradient.
Theorem C47_screening_table : forall NT ZbyT g g' s phi A Ap As E, 0 <= E -> g (Vmapped1 (ZbyT * phi)) = 1 / (1 + E) ->
  fst (fst (screening_apply NT ZbyT g g' s phi A Ap As)) = A + s * (NT * E).
Proof. exact screening_sample. Qed.
Print Assumptions C47_screening_table.

(** ** dielectric *)
(** the bisection terminates with a bracket lo <= eps <= hi around the field x, of width relative 1e-13 *)
Theorem C47_dielectric_bisection : forall linear alpha, 0 <= alpha < 3 -> forall x, 0 < x ->
  exists N eps lo hi, (forall n, (N <= n)%nat -> eps_from_x linear alpha n x = Some eps) /\
    0 < lo /\ lo <= eps <= hi /\ x_from_eps linear alpha lo <= x <= x_from_eps linear alpha hi /\
    hi - lo <= (1.05 * x / (1 - alpha / 3)) * / 10 ^ 13.
Proof. exact eps_correct. Qed.
Print Assumptions C47_dielectric_bisection.
(** the constructor only rejects alpha < 0: for epsBulk < epsInf (alpha > 3) the linear inversion loops forever *)
Theorem C47_dielectric_bisection_refuted : exists linear alpha x, 0 <= alpha /\ 0 < x /\ forall n, eps_from_x linear alpha n x = None.
Proof. exact bisection_refuted. Qed.
Print Assumptions C47_dielectric_bisection_refuted.
(** dA/dx = NT (eps frac + X x): the derivative of the energy with respect to the field is the total polarization *)
Theorem C47_dielectric_energy_derivative : forall linear alpha X NT, 0 <= alpha < 3 -> forall e, 0 < e -> (linear = true \/ 1/10 < e < 20) ->
  exists x', 0 < x' /\ is_derive (x_from_eps linear alpha) e x' /\
    is_derive (fun e : R => dielEnergy linear alpha X NT e (x_from_eps linear alpha e)) e
      (NT * (e * fst (calcFunctions linear e) + X * x_from_eps linear alpha e) * x').
Proof. exact diel_derive. Qed.
Print Assumptions C47_dielectric_energy_derivative.
(** the small-field series for logsinch is one order shorter than that for frac, so it is not its exact antiderivative *)
Theorem C47_dielectric_series_refuted : exists e, 0 < e < 1/10 /\
  ~ is_derive (fun e : R => snd (calcFunctions false e)) e (e * fst (calcFunctions false e)).
Proof. exact series_refuted. Qed.
Print Assumptions C47_dielectric_series_refuted.
(** the exact size of the mismatch on both sides *)
Theorem C47_dielectric_series_error : forall e, 0 < e < 1/10 ->
  is_derive (fun e : R => snd (calcFunctions false e)) e (e * fst (calcFunctions false e) + e ^ 7 / 4725).
Proof. exact series_mismatch. Qed.
Print Assumptions C47_dielectric_series_error.
Theorem C47_dielectric_large_error : forall e, 20 < e ->
  is_derive (fun e : R => snd (calcFunctions false e)) e (e * fst (calcFunctions false e) - 2 / (exp (2 * e) - 1)).
Proof. exact large_mismatch. Qed.
Print Assumptions C47_dielectric_large_error.
(** the tabulated value for x -> 0 is the limit of the other samples (exactly all of them for the linear model) *)
Theorem C47_dielectric_zero_sample : forall linear alpha X NT, 0 <= alpha < 3 -> linear = false ->
  filterlim (fun e : R => dielEnergy linear alpha X NT e (x_from_eps linear alpha e) / (x_from_eps linear alpha e * x_from_eps linear alpha e))
    (at_right 0) (locally (0.5 * NT * (1 / (3 - alpha) + X))).
Proof. exact diel_limit. Qed.
Print Assumptions C47_dielectric_zero_sample.
Theorem C47_dielectric_linear_sample : forall linear alpha X NT, 0 <= alpha < 3 -> forall e, linear = true -> 0 < e ->
  dielEnergy linear alpha X NT e (x_from_eps linear alpha e) / (x_from_eps linear alpha e * x_from_eps linear alpha e) = 0.5 * NT * (1 / (3 - alpha) + X).
Proof. exact diel_linear. Qed.
Print Assumptions C47_dielectric_linear_sample.
(** whatever smooth lookup is used, the stored vector is the exact gradient of the energy with respect to the field
    (also at zero field), and A_s its derivative with respect to the cavity shape *)
Theorem C47_dielectric_gradient : forall pByT g g' s v d, 0 < pByT -> (forall y, 0 < y < 1 -> is_derive g y (g' y)) ->
  (exists B e, 0 < e /\ forall y, 0 <= y < e -> Rabs (g y) <= B) ->
  is_derive (fun t : R => fst (fst (dielectric_apply pByT g g' s (rvadd v (rvscale t d))))) 0 (rdot (snd (fst (dielectric_apply pByT g g' s v))) d).
Proof. exact dielectric_derive. Qed.
Print Assumptions C47_dielectric_gradient.
Theorem C47_dielectric_shape_gradient : forall pByT g g' s v,
  is_derive (fun s : R => fst (fst (dielectric_apply pByT g g' s v))) s (snd (dielectric_apply pByT g g' s v)).
Proof. exact dielectric_s. Qed.
Print Assumptions C47_dielectric_shape_gradient.
Theorem C47_dielectric_table : forall pByT g g' s v E, 0 < pByT -> v <> V 0 0 0 ->
  let x := pByT * rlen v in g (x / (1 + x)) = E / (x * x) -> fst (fst (dielectric_apply pByT g g' s v)) = s * E.
Proof. exact dielectric_sample. Qed.
Print Assumptions C47_dielectric_table.
Theorem C47_field_map : forall x, 0 <= x -> let m := x / (1 + x) in 0 <= m < 1 /\ m / (1 - m) = x.
Proof. exact diel_mapped. Qed.
Print Assumptions C47_field_map.

(** examples: at zero potential the bulk packing fraction is the root; a linear dielectric; a quadratic lookup *)
Example C47_root_ex : rootFunc (1/10) (1/5) (3/10) 0 = 0.
Proof.
  unfold rootFunc, fHS, x0. cbn [snd]. replace (2 / (1/10 + 1/5) * 2 * ((3/10 - (1/10 + 1/5)) * (1 / (1 - 3/10)) * (1 / (1 - (1/10 + 1/5)))) * (1 / (1 - 3/10) * (1 / (1 - 3/10))) * 1) with 0 by field.
  replace (- 0 - 0 * (1/10)) with 0 by ring. replace (0 - 0 * (1/5)) with 0 by ring. rewrite exp_0. lra.
Qed.
Example C47_linear_ex : x_from_eps true 1 3 = 2 /\ dielEnergy true 1 2 5 3 2 = 5 * (3/2 - 1/2 + 4).
Proof. unfold x_from_eps, dielEnergy, calcFunctions. cbn [fst snd]. split; lra. Qed.
Example C47_lookup_ex : forall y, 0 < y < 2 -> is_derive (fun y : R => y) y 1 /\ y <> 0.
Proof. intros y Hy. split; [apply @is_derive_id|lra]. Qed.
