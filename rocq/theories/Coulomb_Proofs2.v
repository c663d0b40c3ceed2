(** The lattice gradients of the isotropic and slab kernels. *)
From Coq Require Import ZArith Reals List Lia Lra.
From Coquelicot Require Import Coquelicot.
From Verif Require Import Vec3_Model Vec3_Facts Basis_Model Coulomb_Model Coulomb_Spec Coulomb_Proofs.
Import ListNotations.
Local Open Scope R_scope.

Definition cart (G : mat R) (s : smat) : mat R := rmm (rmm (mtrans G) (smat_mat s)) G.

Lemma const_derive (f : R -> R) c l : (forall t, f t = c) -> l = 0 -> is_derive f 0 l.
Proof. intros E ->. apply (is_derive_ext (fun _ => c)); [intros; symmetry; apply E|]. apply (is_derive_const (V := R_NormedModule) c 0). Qed.
Lemma outer_0 : outer (V 0 0 0) = szero.
Proof. unfold outer, szero; cbn. f_equal; ring. Qed.
Lemma cart_scale G s a e : ddot (cart G (sscale s a)) e = s * ddot (cart G a) e.
Proof. unfold cart. replace (smat_mat (sscale s a)) with (rmscale s (smat_mat a)) by (destruct a; unfold smat_mat, sscale; v3u; cbn; f_equal; ring).
  replace (rmm (mtrans G) (rmscale s (smat_mat a))) with (rmscale s (rmm (mtrans G) (smat_mat a)))
    by (generalize (mtrans G) (smat_mat a); intros p q; destruct p, q; v3u; f_equal; ring).
  generalize (rmm (mtrans G) (smat_mat a)). intros p. destruct p, G, e. unfold ddot. v3u. ring.
Qed.
Lemma sscale_0 : szero = sscale 0 szero.
Proof. unfold sscale, szero; cbn [sxx syy szz syz szx sxy]; f_equal; ring. Qed.
Lemma cart_0 G e a : ddot (cart G (sscale a szero)) e = 0.
Proof. rewrite cart_scale, sscale_0, cart_scale. ring. Qed.

(** reduction of an isotropic kernel: K iG M = k (metric2 M iG) *)
Lemma iso_grad (k : R -> R) (kp : R -> R) Rl e iG s :
  rdet Rl <> 0 ->
  (forall x, 0 < x -> is_derive k x (kp x)) ->
  (0 < metric2 (gGGT Rl) (vIZR iG) -> s = -2 * kp (metric2 (gGGT Rl) (vIZR iG))) ->
  is_derive (fun t => k (metric2 (gGGT (strained Rl e t)) (vIZR iG))) 0 (ddot (cart (gG Rl) (sscale s (outer (vIZR iG)))) e).
Proof.
  intros D K S. destruct (Req_EM_T (metric2 (gGGT Rl) (vIZR iG)) 0) as [E|N].
  - assert (Z : vIZR iG = V 0 0 0).
    { apply (rvm_inj (gG Rl)). apply det_gG; exact D. apply rlen2_0. rewrite <- metric_len. exact E. }
    apply (const_derive _ (k 0)).
    + intros t. f_equal. rewrite (proj1 (vIZR_0 iG) Z). apply metric2_0.
    + rewrite Z, outer_0. apply cart_0.
  - assert (P : 0 < metric2 (gGGT Rl) (vIZR iG)).
    { rewrite metric_len in *. destruct (Rle_lt_or_eq_dec _ _ (rlen2_pos (rvm (vIZR iG) (gG Rl)))) as [L|L]; [exact L|congruence]. }
    unfold cart. rewrite outer_conv. rewrite (S P). rewrite metric_len in *. apply iso_kernel; [exact D|]. apply K; exact P.
Qed.

Lemma sq_ne x : 0 < x -> x <> 0. Proof. lra. Qed.
Ltac iso_k k2 := intros x P; apply (iso_loc _ k2 x _ P); [intros y Q; destruct (Req_EM_T y 0); [lra|reflexivity]|].

Lemma periodic_ok Rl e iG : rdet Rl <> 0 ->
  is_derive (fun t => periodic iG (gGGT (strained Rl e t))) 0 (ddot (cart (gG Rl) (periodic_grad iG (gGGT Rl))) e).
Proof.
  intros D. unfold periodic, periodic_grad.
  apply (iso_grad (fun x => if Req_EM_T x 0 then 0 else 4 * PI / x) (fun x => - (4 * PI) / (x * x))); [exact D| |].
  - iso_k (fun y => 4 * PI / y). apply d_periodic; exact P.
  - intros P. destruct (Req_EM_T _ 0) as [E|N]; [lra|]. field. exact N.
Qed.
Lemma spherical_ok Rc Rl e iG : rdet Rl <> 0 ->
  is_derive (fun t => spherical Rc iG (gGGT (strained Rl e t))) 0 (ddot (cart (gG Rl) (spherical_grad Rc iG (gGGT Rl))) e).
Proof.
  intros D. unfold spherical, spherical_grad.
  apply (iso_grad (fun x => if Req_EM_T x 0 then 2 * PI * Rc * Rc else 4 * PI * (1 - cos (Rc * sqrt x)) / x)
    (fun x => - (2 * PI) * (2 * (1 - cos (sqrt x * Rc)) - sqrt x * Rc * sin (sqrt x * Rc)) / (x * x))); [exact D| |].
  - iso_k (fun y => 4 * PI * (1 - cos (Rc * sqrt y)) / y). apply d_sphere; exact P.
  - intros P. destruct (Req_EM_T _ 0) as [E|N]; [lra|]. field. exact N.
Qed.
Lemma ionkernel_ok w z Rl e iG : rdet Rl <> 0 ->
  is_derive (fun t => ionkernel w z iG (gGGT (strained Rl e t))) 0 (ddot (cart (gG Rl) (ionkernel_grad w iG (gGGT Rl))) e).
Proof.
  intros D. unfold ionkernel, ionkernel_grad. set (a := ion_expFac w).
  apply (iso_grad (fun x => 4 * PI * (if Req_EM_T x 0 then z else (1 - exp (- a * x)) / x))
    (fun x => - (4 * PI) * (1 - exp (- a * x) * (1 + a * x)) / (x * x))); [exact D| |].
  - intros x P. apply (iso_loc _ (fun x => 4 * PI * (1 - exp (- a * x)) / x) x _ P).
    + intros y Q. destruct (Req_EM_T y 0); [lra|]. field. lra.
    + apply d_gauss; exact P.
  - intros P. destruct (Req_EM_T _ 0) as [E|N]; [lra|]. field. exact N.
Qed.

(** ** Sum over reciprocal space *)
Lemma cart_add G a b e : ddot (cart G (sadd a b)) e = ddot (cart G a) e + ddot (cart G b) e.
Proof. unfold cart. replace (smat_mat (sadd a b)) with (rmadd (smat_mat a) (smat_mat b)) by (destruct a, b; unfold smat_mat, sadd; v3u; cbn; reflexivity).
  replace (rmm (mtrans G) (rmadd (smat_mat a) (smat_mat b))) with (rmadd (rmm (mtrans G) (smat_mat a)) (rmm (mtrans G) (smat_mat b)))
    by (generalize (mtrans G) (smat_mat a) (smat_mat b); intros p q r; destruct p, q, r; v3u; f_equal; ring).
  generalize (rmm (mtrans G) (smat_mat a)) (rmm (mtrans G) (smat_mat b)). intros p q. destruct p, q, G, e. unfold ddot. v3u. ring.
Qed.
Lemma stress_ok (K : vec Z -> mat R -> R) (gr : vec Z -> smat) S2 Rl e l :
  (forall iG, is_derive (fun t => K iG (gGGT (strained Rl e t))) 0 (ddot (cart (gG Rl) (gr iG)) e)) ->
  is_derive (fun t => pairEnergy (Rabs (rdet Rl)) S2 (fun iG => K iG (gGGT (strained Rl e t))) l) 0
    (ddot (latticeGradient Rl (stressSum S2 gr l)) e).
Proof.
  intros H. unfold pairEnergy, latticeGradient. set (v := Rabs (rdet Rl)). clearbody v.
  assert (Q : is_derive (fun t => fold_right (fun p acc => let '(iG, ((xr, xi), (yr, yi))) := p in
        (if orb (Z.eqb (c2 iG) 0) (Z.eqb (2 * c2 iG) S2) then 1 else 2) * (xr * yr + xi * yi) * K iG (gGGT (strained Rl e t)) + acc) 0 l) 0
     (ddot (cart (gG Rl) (stressSum S2 gr l)) e)).
  { induction l as [|[iG [[xr xi] [yr yi]]] l IH].
    - cbn [fold_right stressSum]. apply (const_derive _ 0); [reflexivity|].
      rewrite sscale_0. apply cart_0.
    - cbn [fold_right stressSum]. rewrite cart_add, cart_scale. unfold weight.
      apply (is_derive_plus (V := R_NormedModule)); [|exact IH]. apply is_derive_scal. apply H. }
  evar_last; [apply is_derive_scal; exact Q|].
  fold (cart (gG Rl) (stressSum S2 gr l)). generalize (cart (gG Rl) (stressSum S2 gr l)). intros m. destruct m, e. unfold ddot. v3u. ring.
Qed.
