(** Lattice derivative of the whole exchange energy. *)
From Coq Require Import ZArith Reals List Lia Lra.
From Coquelicot Require Import Coquelicot.
From Verif Require Import Base Gauss Vec3_Model Vec3_Facts Lattice_Model Basis_Model LDA_Model Coulomb_Model Coulomb_Spec Coulomb_Proofs Coulomb_Proofs2 Coulomb_Proofs3 Coulomb_Proofs4 Coulomb_Proofs5 Exchange_Model Exchange_Spec.
Import ListNotations.
Local Open Scope R_scope.
Set Bullet Behavior "Strict Subproofs".

Lemma ddot_rmadd a b e : ddot (rmadd a b) e = ddot a e + ddot b e.
Proof. unfold ddot; v3u; cbn; ring. Qed.
Lemma ddot_rmscale k a e : ddot (rmscale k a) e = k * ddot a e.
Proof. unfold ddot; v3u; cbn; ring. Qed.
Lemma ddot_szero e : ddot (smat_mat szero) e = 0.
Proof. unfold ddot, smat_mat, szero; cbn; ring. Qed.

Lemma fold_sum {A} (f : A -> R) l s : fold_left (fun s g => s + f g) l s = s + fold_right (fun g a => f g + a) 0 l.
Proof. revert s. induction l; intros s; cbn [fold_left fold_right]; [ring|]. rewrite IHl. ring. Qed.
Lemma fold_ssum (f : vec Z -> smat) e l s : ddot (smat_mat (fold_left (fun s g => sadd s (f g)) l s)) e
  = ddot (smat_mat s) e + fold_right (fun g a => ddot (smat_mat (f g)) e + a) 0 l.
Proof. revert s. induction l; intros s; cbn [fold_left fold_right]; [ring|]. rewrite IHl, ddot_sadd. ring. Qed.

Lemma sum_derive {A} (f : R -> A -> R) (f' : A -> R) l :
  (forall g, In g l -> is_derive (fun t => f t g) 0 (f' g)) ->
  is_derive (fun t => fold_right (fun g a => f t g + a) 0 l) 0 (fold_right (fun g a => f' g + a) 0 l).
Proof.
  induction l as [|x l IH]; intros H; cbn [fold_right]; [apply (is_derive_const (V := R_NormedModule) 0 0)|].
  apply (is_derive_plus (V := R_NormedModule)); [apply H; left; reflexivity|apply IH; intros; apply H; right; assumption].
Qed.

(** contribution of the single point where the kernel is the G=0 value *)
Lemma sum_single (f h : vec Z -> R) (g0 : vec Z) (v : R) l : NoDup l -> In g0 l ->
  (forall g, In g l -> g <> g0 -> f g = h g) -> f g0 = h g0 + v ->
  fold_right (fun g a => f g + a) 0 l = fold_right (fun g a => h g + a) 0 l + v.
Proof.
  induction l as [|x l IH]; intros ND I E E0; [destruct I|]. inversion ND; subst. cbn [fold_right].
  destruct I as [->|I].
  - rewrite E0. assert (Q : fold_right (fun g a => f g + a) 0 l = fold_right (fun g a => h g + a) 0 l).
    { clear - E H1. induction l as [|y l IH]; [reflexivity|]. cbn [fold_right]. rewrite (E y).
      - rewrite IH; [reflexivity| |].
        + intros g G; apply E. destruct G; [left; assumption|right; right; assumption].
        + intros A; apply H1; right; exact A.
      - right; left; reflexivity.
      - intros ->; apply H1; left; reflexivity. }
    rewrite Q. ring.
  - rewrite (E x), IH; [ring| | | | | |]; auto; [intros; apply E; [right; assumption|assumption]|left; reflexivity|intros ->; contradiction].
Qed.
Lemma sum_same (f h : vec Z -> R) l : (forall g, In g l -> f g = h g) -> fold_right (fun g a => f g + a) 0 l = fold_right (fun g a => h g + a) 0 l.
Proof. induction l; intros E; cbn [fold_right]; [reflexivity|]. rewrite (E a) by (left; reflexivity). rewrite IHl; [reflexivity|]. intros; apply E; right; assumption. Qed.

Section Whole.
  Variables (grid : list (vec Z)) (X : vec Z -> R * R) (th : R) (kDiff : vec R) (Rl e : mat R).
  Variables (K : R -> vec Z -> R) (dK : vec Z -> smat) (Vz : R -> R) (VzR : mat R).
  Let q (g : vec Z) := metric2 (gGGT Rl) (rvadd (vIZR g) kDiff).
  Lemma whole : NoDup grid -> In (V 0 0 0)%Z grid -> rdet Rl <> 0 ->
    is_derive Vz 0 (ddot VzR e) ->
    (forall g, In g grid -> th < q g -> is_derive (fun t => K t g) 0 (ddot (smat_mat (dK g)) e)) ->
    (forall g, In g grid -> q g < th -> locally 0 (fun t => K t g = Vz t) /\ ddot (smat_mat (dK g)) e = 0) ->
    ((rlen2 kDiff < th /\ q (V 0 0 0)%Z < th /\ forall g, In g grid -> g <> (V 0 0 0)%Z -> th < q g) \/ (th <= rlen2 kDiff /\ forall g, In g grid -> th < q g)) ->
    is_derive (fun t => exchangeEnergy grid X (K t) (Rabs (rdet Rl))) 0 (ddot (exchangeStress grid X th kDiff dK VzR (Rabs (rdet Rl))) e).
  Proof.
    intros ND I0 D HV Ha Hb C. unfold exchangeEnergy, exchangeStress.
    set (f' := fun g => cnorm (X g) * (if Rlt_dec (q g) th then ddot VzR e else ddot (smat_mat (dK g)) e)).
    assert (S : is_derive (fun t => fold_right (fun g a => cnorm (X g) * K t g + a) 0 grid) 0 (fold_right (fun g a => f' g + a) 0 grid)).
    { apply sum_derive. intros g G. apply is_derive_scal. destruct (Rlt_dec (q g) th) as [L|L].
      - destruct (Hb g G L) as [L1 _]. apply (is_derive_ext_loc Vz); [|exact HV]. revert L1. apply filter_imp. intros t E; symmetry; exact E.
      - apply Ha; [exact G|]. destruct C as [(_ & C0 & C)|[_ C]]; [|apply C; exact G].
        apply C; [exact G|]. intros ->. lra. }
    apply (is_derive_ext (fun t => Rabs (rdet Rl) * fold_right (fun g a => cnorm (X g) * K t g + a) 0 grid)).
    { intros t. rewrite (fold_sum (fun g => cnorm (X g) * K t g)). rewrite Rplus_0_l. reflexivity. }
    evar_last; [apply is_derive_scal; exact S|]. cbv zeta. rewrite ddot_rmscale. f_equal.
    set (S0 := smat_mat (fold_left _ grid szero)).
    assert (E0 : ddot S0 e = fold_right (fun g a => cnorm (X g) * ddot (smat_mat (dK g)) e + a) 0 grid).
    { unfold S0. rewrite (fold_ssum (fun g => sscale (cnorm (X g)) (dK g))), ddot_szero, Rplus_0_l. apply sum_same. intros g _. apply ddot_sscale. }
    destruct C as [(C1 & C0 & C)|[C1 C]].
    - destruct (Rlt_dec (rlen2 kDiff) th) as [_|N]; [|lra]. rewrite ddot_rmadd, ddot_rmscale, E0.
      apply (sum_single _ _ (V 0 0 0)%Z); auto.
      + intros g G N. unfold f'. destruct (Rlt_dec (q g) th) as [L|_]; [|reflexivity]. specialize (C g G N). lra.
      + unfold f'. destruct (Rlt_dec (q _) th) as [_|N]; [|lra]. destruct (Hb _ I0 C0) as [_ ->]. ring.
    - destruct (Rlt_dec (rlen2 kDiff) th) as [N|_]; [lra|]. rewrite E0. apply sum_same. intros g G. unfold f'.
      destruct (Rlt_dec (q g) th) as [L|_]; [|reflexivity]. specialize (C g G). lra.
  Qed.
End Whole.

Lemma wave_metric Rl k : waveSq Rl k = metric2 (gGGT Rl) k.
Proof.
  unfold waveSq. rewrite metric_len. f_equal. unfold gG.
  destruct (rinv Rl), k. v3u. cbn. f_equal; ring.
Qed.
Lemma regular_split Rl th grid kDiff : 0 < th -> regular Rl th grid kDiff ->
  let q g := metric2 (gGGT Rl) (rvadd (vIZR g) kDiff) in
  (rlen2 kDiff < th /\ q (V 0 0 0)%Z < th /\ forall g, In g grid -> g <> (V 0 0 0)%Z -> th < q g) \/ (th <= rlen2 kDiff /\ forall g, In g grid -> th < q g).
Proof.
  intros T [[-> H]|[H1 H]]; [left|right].
  - assert (Z : forall g, rvadd (vIZR g) (V 0 0 0) = real3 g) by (intros [x y z]; unfold real3; v3u; cbn; f_equal; ring).
    split; [v3u; cbn; lra|split].
    + cbv beta zeta. rewrite Z. unfold real3; cbn. unfold metric2. v3u; cbn. lra.
    + intros g G N. rewrite Z, <- wave_metric. apply H; assumption.
  - split; [exact H1|]. intros g G. rewrite <- wave_metric. exact (H g G).
Qed.
