(** Slab Ewald sum: derivatives. *)
From Coq Require Import ZArith Reals List Bool Lia Lra Psatz.
From Coquelicot Require Import Coquelicot.
From Verif Require Import Base Gauss Grid_Model Vec3_Model Vec3_Facts Lattice_Model RealUtil Basis_Model Coulomb_Model Coulomb_Proofs Coulomb_Proofs3 WS_Model Ions_Model CellMap_Spec CellMap_Proofs
  VdW_Model VdW_Spec VdW_Proofs VdW_Proofs2 VdW_Proofs3 VdW_Proofs4 Ewald_Model Ewald_Spec Ewald_Proofs Ewald_Proofs2 Ewald_Proofs3.
Import ListNotations.
Local Open Scope R_scope.
Set Bullet Behavior "Strict Subproofs".

(** ** The function of G and z *)
Section ZT.
  Variable sigma : R.
  Hypothesis Sp : 0 < sigma.
  Let et := sqrt (1/2) / sigma.
  Let Ap (G z : R) := exp (G * z) * erfc (et * (sigma * sigma * G + z)).
  Let Am (G z : R) := exp (- (G * z)) * erfc (et * (sigma * sigma * G - z)).
  Definition zF (G z : R) : R := 1/2 / G * (Ap G z + Am G z).
  Definition zP (G z : R) : R := 1/2 * (Ap G z - Am G z).
  Definition zK (G z : R) : R := exp (- (1/2 * (sigma * sigma) * (G * G) + et * et * z * z)).
  Definition zM (G z : R) : R := (zF G z - z * zP G z + sigma * sqrt (2 / PI) * zK G z) / (G * G).
  Lemma et2 : et * et * (sigma * sigma) = 1/2.
  Proof. unfold et. transitivity (sqrt (1/2) * sqrt (1/2)); [field; lra|apply sqrt_sqrt; lra]. Qed.
  Lemma et_coef : 2 / sqrt PI * (et * (sigma * sigma)) = sigma * sqrt (2 / PI).
  Proof.
    unfold et. assert (Q := sqrtPI_pos). rewrite !sqrt_div by (try lra; apply PI_RGT_0). rewrite sqrt_1. assert (S : 0 < sqrt 2) by (apply sqrt_lt_R0; lra).
    assert (S2 : sqrt 2 * sqrt 2 = 2) by (apply sqrt_sqrt; lra). rewrite <- S2 at 1. field. lra.
  Qed.
  Lemma zF_derive (G z : R -> R) G' z' : is_derive G 0 G' -> is_derive z 0 z' -> 0 < G 0 ->
    is_derive (fun t => zF (G t) (z t)) 0 (z' * zP (G 0) (z 0) - G' * G 0 * zM (G 0) (z 0)).
  Proof.
    intros DG Dz P. set (g := G 0) in *. set (w := z 0) in *. assert (Q := sqrtPI_pos).
    assert (DGz : is_derive (fun t => G t * z t) 0 (G' * w + g * z')) by apply (dmul G z 0 G' z' DG Dz).
    assert (Dx : is_derive (fun t => exp (G t * z t)) 0 ((G' * w + g * z') * exp (g * w))).
    { apply (is_derive_comp (K:=R_AbsRing) (V:=R_NormedModule) exp (fun t => G t * z t) 0 (exp (g * w)) (G' * w + g * z')); [apply is_derive_exp|exact DGz]. }
    assert (Dm : is_derive (fun t => exp (- (G t * z t))) 0 (- (G' * w + g * z') * exp (- (g * w)))).
    { apply (is_derive_comp (K:=R_AbsRing) (V:=R_NormedModule) exp (fun t => - (G t * z t)) 0 (exp (- (g * w))) (- (G' * w + g * z'))); [apply is_derive_exp|]. apply (is_derive_opp (V:=R_NormedModule) (fun t => G t * z t)). exact DGz. }
    assert (De1 : is_derive (fun t => erfc (et * (sigma * sigma * G t + z t))) 0 (et * (sigma * sigma * G' + z') * - (2 / sqrt PI * gauss (et * (sigma * sigma * g + w))))).
    { apply (is_derive_comp (K:=R_AbsRing) (V:=R_NormedModule) erfc (fun t => et * (sigma * sigma * G t + z t)) 0); [apply is_derive_erfc|]. apply dscal, dplus; [apply dscal; exact DG|exact Dz]. }
    assert (De2 : is_derive (fun t => erfc (et * (sigma * sigma * G t - z t))) 0 (et * (sigma * sigma * G' + - z') * - (2 / sqrt PI * gauss (et * (sigma * sigma * g - w))))).
    { apply (is_derive_comp (K:=R_AbsRing) (V:=R_NormedModule) erfc (fun t => et * (sigma * sigma * G t - z t)) 0); [apply is_derive_erfc|]. 
      apply (dscal (fun t => sigma * sigma * G t - z t)). apply (dplus (fun t => sigma * sigma * G t) (fun t => - z t)); [apply dscal; exact DG|apply (is_derive_opp (V:=R_NormedModule)); exact Dz]. }
    assert (K1 : exp (g * w) * gauss (et * (sigma * sigma * g + w)) = zK g w).
    { unfold gauss, zK. rewrite <- exp_plus. f_equal. assert (E := et2). 
      replace (et * (sigma * sigma * g + w) * (et * (sigma * sigma * g + w))) with ((et * et * (sigma * sigma)) * (sigma * sigma) * (g * g) + 2 * (et * et * (sigma * sigma)) * g * w + et * et * w * w) by ring. rewrite E. lra. }
    assert (K2 : exp (- (g * w)) * gauss (et * (sigma * sigma * g - w)) = zK g w).
    { unfold gauss, zK. rewrite <- exp_plus. f_equal. assert (E := et2). 
      replace (et * (sigma * sigma * g - w) * (et * (sigma * sigma * g - w))) with ((et * et * (sigma * sigma)) * (sigma * sigma) * (g * g) - 2 * (et * et * (sigma * sigma)) * g * w + et * et * w * w) by ring. rewrite E. lra. }
    assert (DA := dmul _ _ _ _ _ Dx De1). assert (DB := dmul _ _ _ _ _ Dm De2). cbv beta in DA, DB. fold g w in DA, DB.
    assert (DS := dmul _ _ _ _ _ (dscal _ _ _ (1/2) (dinv1 G 0 G' DG ltac:(fold g; lra))) (dplus _ _ _ _ _ DA DB)). cbv beta in DS. fold g w in DS.
    apply (is_derive_ext (fun t => 1/2 * (1 / G t) * (exp (G t * z t) * erfc (et * (sigma * sigma * G t + z t)) + exp (- (G t * z t)) * erfc (et * (sigma * sigma * G t - z t))))).
    { intros t. match goal with |- ?a = ?b => change (@eq R a b) end. unfold zF, Ap, Am, Rdiv. ring. }
    eapply dval; [exact DS|]. unfold zM, zF, zP, Ap, Am. assert (C := et_coef). rewrite <- C. clear DS DA DB De1 De2 Dm Dx DGz C.
    set (E1 := erfc (et * (sigma * sigma * g + w))) in *. set (E2 := erfc (et * (sigma * sigma * g - w))) in *.
    set (X := exp (g * w)) in *. set (Y := exp (- (g * w))) in *. set (g1 := gauss (et * (sigma * sigma * g + w))) in *. set (g2 := gauss (et * (sigma * sigma * g - w))) in *. rewrite <- K1 at 1.
    assert (K3 : Y * g2 = X * g1) by lra. clearbody E1 E2 X Y g1 g2.
    apply Rminus_diag_uniq. transitivity ((1 / (g * sqrt PI)) * et * (z' - sigma * sigma * G') * (Y * g2 - X * g1)); [field; split; lra|]. rewrite K3. ring.
  Qed.
  (** G = 0 *)
  Definition zF0 (z : R) : R := - z * erf (et * z) - 1 / (et * sqrt PI) * exp (- (et * et) * z * z).
  Lemma zF0_derive z : is_derive zF0 z (- erf (et * z)).
  Proof.
    assert (Ep : 0 < et) by (unfold et; apply Rdiv_lt_0_compat; [apply sqrt_lt_R0; lra|exact Sp]). assert (Q := sqrtPI_pos).
    assert (De : is_derive (fun z => erf (et * z)) z (et * (2 / sqrt PI * gauss (et * z)))).
    { apply (is_derive_comp (K:=R_AbsRing) (V:=R_NormedModule) erf (fun z => et * z) z (2 / sqrt PI * gauss (et * z)) et); [apply is_derive_erf|]. auto_derive; [exact Logic.I|ring]. }
    assert (Dz : is_derive (fun z : R => - z) z (-1)) by (auto_derive; [exact Logic.I|ring]).
    assert (Dg : is_derive (fun z => - (1 / (et * sqrt PI)) * exp (- (et * et) * z * z)) z (2 * et / sqrt PI * z * exp (- (et * et) * z * z))).
    { auto_derive; [exact Logic.I|]. field. lra. }
    apply (is_derive_ext (fun z => - z * erf (et * z) + - (1 / (et * sqrt PI)) * exp (- (et * et) * z * z))).
    { intros t. match goal with |- ?a = ?b => change (@eq R a b) end. unfold zF0. ring. }
    eapply dval; [apply dplus; [apply (dmul _ _ _ _ _ Dz De)|exact Dg]|]. cbv beta. unfold gauss. replace (- (et * z * (et * z))) with (- (et * et) * z * z) by ring. field. lra.
  Qed.
End ZT.
