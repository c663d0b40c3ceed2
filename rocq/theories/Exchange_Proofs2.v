(** The three kernels with their G=0 components. *)
From Coq Require Import ZArith Reals List Lia Lra.
From Coquelicot Require Import Coquelicot.
From Verif Require Import Base Gauss Vec3_Model Vec3_Facts Lattice_Model Basis_Model LDA_Model LDA_Proofs Coulomb_Model Coulomb_Spec Coulomb_Proofs Coulomb_Proofs2 Coulomb_Proofs3 Coulomb_Proofs4 Coulomb_Proofs5 Exchange_Model Exchange_Spec Exchange_Proofs.
Import ListNotations.
Local Open Scope R_scope.
Set Bullet Behavior "Strict Subproofs".

Lemma erfc_0 : erfc 0 = 1.
Proof. unfold erfc. rewrite erf_0. ring. Qed.
Lemma exchange_above_V K V1 V2 th g k (G : mat R) : th <= metric2 G (rvadd (vIZR g) k) -> exchange K V1 th g k G = exchange K V2 th g k G.
Proof. intros H. unfold exchange. destruct (Rlt_dec _ th); [lra|reflexivity]. Qed.
Lemma exchange_ext_V K (Vz : R -> R) th g k Rl e l : rdet Rl <> 0 -> th < metric2 (gGGT Rl) (rvadd (vIZR g) k) ->
  is_derive (fun t => exchange (K t) (Vz 0) th g k (gGGT (strained Rl e t))) 0 l ->
  is_derive (fun t => exchange (K t) (Vz t) th g k (gGGT (strained Rl e t))) 0 l.
Proof.
  intros D T H. refine (is_derive_ext_loc _ _ _ _ _ H). generalize (above_loc Rl e _ th D T). apply filter_imp. intros t L. apply exchange_above_V. lra.
Qed.
Lemma exchange_below_facts (K : R -> xkernel) Vz th g k Rl e : rdet Rl <> 0 -> metric2 (gGGT Rl) (rvadd (vIZR g) k) < th ->
  locally 0 (fun t => exchange (K t) (Vz t) th g k (gGGT (strained Rl e t)) = Vz t) /\ ddot (smat_mat (exchange_grad (K 0) th g k (gG Rl))) e = 0.
Proof.
  intros D T. split.
  - generalize (below_loc Rl e _ th D T). apply filter_imp. intros t L. unfold exchange. destruct (Rlt_dec _ th); [reflexivity|lra].
  - unfold exchange_grad. rewrite <- metric_len. destruct (Rlt_dec _ th); [|lra]. rewrite ddot_sscale. ring.
Qed.

Lemma periodic_whole omega grid X th kDiff Rl e (corr : R -> R * mat R) :
  rdet Rl <> 0 -> 0 < th -> NoDup grid -> In (V 0 0 0)%Z grid -> regular Rl th grid kDiff ->
  is_derive (fun t => fst (corr t)) 0 (ddot (snd (corr 0)) e) ->
  is_derive (fun t => exchangeEnergy grid X (fun g => exchange (periodicKernel omega) (fst (VzeroPeriodic omega (corr t))) th g kDiff (gGGT (strained Rl e t))) (Rabs (rdet Rl))) 0
    (ddot (exchangeStress grid X th kDiff (fun g => exchange_grad (periodicKernel omega) th g kDiff (gG Rl)) (snd (VzeroPeriodic omega (corr 0))) (Rabs (rdet Rl))) e).
Proof.
  intros D T ND I0 Rg HC.
  apply (whole grid X th kDiff Rl e (fun t g => exchange (periodicKernel omega) (fst (VzeroPeriodic omega (corr t))) th g kDiff (gGGT (strained Rl e t)))
    (fun g => exchange_grad (periodicKernel omega) th g kDiff (gG Rl)) (fun t => fst (VzeroPeriodic omega (corr t)))); auto.
  - unfold VzeroPeriodic; cbn [fst snd]. evar_last; [apply (is_derive_plus (V := R_NormedModule) (fun t => fst (corr t)) (fun _ => _)); [exact HC|apply (is_derive_const (V := R_NormedModule))]|].
    apply Rplus_0_r.
  - intros g G H. apply (exchange_ext_V (fun _ => periodicKernel omega) (fun t => fst (VzeroPeriodic omega (corr t)))); auto.
    unfold periodicKernel. destruct (Req_EM_T omega 0); [apply exPeriodic_ok|apply exScreened_ok]; auto; lra.
  - intros g G H. apply (exchange_below_facts (fun _ => periodicKernel omega) (fun t => fst (VzeroPeriodic omega (corr t)))); auto.
  - apply regular_split; auto.
Qed.

Lemma VzeroSpherical_derive nk Rl e : 0 < nk -> rdet Rl <> 0 ->
  is_derive (fun t => fst (VzeroSpherical nk (strained Rl e t))) 0 (ddot (snd (VzeroSpherical nk Rl)) e).
Proof.
  intros Nk D. assert (H := superRc_derive nk Rl e Nk D). unfold VzeroSpherical. cbn [fst snd].
  evar_last.
  { apply (is_derive_mult (fun t => 2 * PI * superRc nk (strained Rl e t)) (fun t => superRc nk (strained Rl e t))); [apply is_derive_scal; exact H|exact H|intros; apply Rmult_comm]. }
  cbv beta. rewrite strained_0, Rmult_0_r, erfc_0. set (r := superRc nk Rl). rewrite ddot_rmscale.
  assert (E : ddot rid e = rtrace e) by (unfold ddot; v3u; cbn; ring). rewrite E.
  unfold plus, mult; cbn. field.
Qed.
Lemma spherical_whole nk grid X th kDiff Rl e :
  0 < nk -> rdet Rl <> 0 -> 0 < th -> NoDup grid -> In (V 0 0 0)%Z grid -> regular Rl th grid kDiff ->
  is_derive (fun t => exchangeEnergy grid X (fun g => exchange (exSpherical (superRc nk (strained Rl e t))) (fst (VzeroSpherical nk (strained Rl e t))) th g kDiff (gGGT (strained Rl e t))) (Rabs (rdet Rl))) 0
    (ddot (exchangeStress grid X th kDiff (fun g => exchange_grad (exSpherical (superRc nk Rl)) th g kDiff (gG Rl)) (snd (VzeroSpherical nk Rl)) (Rabs (rdet Rl))) e).
Proof.
  intros Nk D T ND I0 Rg.
  apply (whole grid X th kDiff Rl e (fun t g => exchange (exSpherical (superRc nk (strained Rl e t))) (fst (VzeroSpherical nk (strained Rl e t))) th g kDiff (gGGT (strained Rl e t)))
    (fun g => exchange_grad (exSpherical (superRc nk Rl)) th g kDiff (gG Rl)) (fun t => fst (VzeroSpherical nk (strained Rl e t)))); auto.
  - apply VzeroSpherical_derive; auto.
  - intros g G H. apply (exchange_ext_V (fun t => exSpherical (superRc nk (strained Rl e t))) (fun t => fst (VzeroSpherical nk (strained Rl e t)))); auto.
    assert (E := exSpherical_ok (fun t => superRc nk (strained Rl e t)) Rl e g kDiff (fst (VzeroSpherical nk (strained Rl e 0))) th D (Rlt_le _ _ T)).
    cbv beta in E. rewrite strained_0 in E. rewrite strained_0. apply E; [lra|]. apply superRc_derive; auto.
  - intros g G H. destruct (exchange_below_facts (fun t => exSpherical (superRc nk (strained Rl e t))) (fun t => fst (VzeroSpherical nk (strained Rl e t))) th g kDiff Rl e D H) as [A B].
    split; [exact A|]. rewrite strained_0 in B. exact B.
  - apply regular_split; auto.
Qed.

Lemma col_strained Rl e t i : mcol (strained Rl e t) i = rvadd (mcol Rl i) (rvscale t (rmv e (mcol Rl i))).
Proof. unfold strained. destruct i as [|[|i]]; cbn [mcol]; destruct Rl, e; v3u; cbn; f_equal; ring. Qed.
Lemma VzeroSlab_derive iDir Rl e (corr : R -> R * mat R) : rdet Rl <> 0 -> 0 < rlen (mcol Rl iDir) ->
  is_derive (fun t => fst (corr t)) 0 (ddot (snd (corr 0)) e) ->
  is_derive (fun t => fst (VzeroSlab iDir (strained Rl e t) (corr t))) 0 (ddot (snd (VzeroSlab iDir Rl (corr 0))) e).
Proof.
  intros D P HC. set (a := mcol Rl iDir) in *. assert (Sq : forall v, rlen v * rlen v = rlen2 v) by (intros v; unfold rlen; apply sqrt_sqrt; unfold rlen2; destruct v; v3u; cbn; nra).
  apply (is_derive_ext (fun t => (- PI / 2) * rlen2 (rvadd a (rvscale t (rmv e a))) + fst (corr t))).
  { intros t. unfold VzeroSlab; cbn [fst]. rewrite col_strained. fold a. rewrite <- Sq. match goal with |- ?x = ?y => change (@eq R x y) end. field. }
  assert (E : ddot (snd (VzeroSlab iDir Rl (corr 0))) e = (- PI) * rdot a (rmv e a) + ddot (snd (corr 0)) e).
  { unfold VzeroSlab; cbn [snd]. rewrite ddot_rmadd, ddot_rmscale. f_equal. fold a. unfold zHatOuter. fold a.
    assert (O : forall k v, ddot (smat_mat (outer (rvscale k v))) e = k * k * rdot v (rmv e v)) by (intros k [x y z]; destruct e; unfold ddot, smat_mat, outer; v3u; cbn; ring).
    rewrite O. field. lra. }
  rewrite E. apply (is_derive_plus (V := R_NormedModule) (fun t => _ * rlen2 _)); [|exact HC].
  clear. destruct a as [a0 a1 a2], e. v3u. cbn. auto_derive; [exact I|]. cbn. field.
Qed.
Lemma hlfL_col iDir Rl : hlfL_of iDir Rl = (1/2) * rlen (mcol Rl iDir).
Proof. unfold hlfL_of. f_equal. unfold rlen. f_equal. destruct iDir as [|[|i]]; destruct Rl; unfold mget, vget, mrow; v3u; cbn; ring. Qed.
Lemma normal_pos Rl i : rdet Rl <> 0 -> (i < 3)%nat -> 0 < rlen (mcol Rl i).
Proof.
  intros D I. unfold rlen. apply sqrt_lt_R0. assert (0 <= rlen2 (mcol Rl i)) by (destruct (mcol Rl i); v3u; cbn; nra).
  destruct (Req_EM_T (rlen2 (mcol Rl i)) 0) as [E|N]; [exfalso|lra].
  destruct Rl; apply D. destruct i as [|[|[|i]]]; [| | |lia]; cbn [mcol] in E; revert E; v3u; cbn; intros E;
    match type of E with ?a * ?a + ?b * ?b + ?c * ?c = 0 => assert (a = 0) by nra; assert (b = 0) by nra; assert (c = 0) by nra; subst; ring end.
Qed.
Lemma slab_whole iDir grid X th kDiff Rl e c (corr : R -> R * mat R) :
  rdet Rl <> 0 -> normal_dir Rl iDir -> keeps_normal e (mcol Rl iDir) c -> vget kDiff iDir = 0 ->
  0 < th -> NoDup grid -> In (V 0 0 0)%Z grid -> regular Rl th grid kDiff ->
  is_derive (fun t => fst (corr t)) 0 (ddot (snd (corr 0)) e) ->
  is_derive (fun t => exchangeEnergy grid X (fun g => exslab iDir (hlfL_of iDir (strained Rl e t)) (fst (VzeroSlab iDir (strained Rl e t) (corr t))) th g kDiff (gGGT (strained Rl e t))) (Rabs (rdet Rl))) 0
    (ddot (exchangeStress grid X th kDiff (fun g => exslab_grad iDir (hlfL_of iDir Rl) (zHatOuter Rl iDir) th g kDiff (gG Rl)) (snd (VzeroSlab iDir Rl (corr 0))) (Rabs (rdet Rl))) e).
Proof.
  intros D Nd Kn Kd T ND I0 Rg HC.
  apply (whole grid X th kDiff Rl e (fun t g => exslab iDir (hlfL_of iDir (strained Rl e t)) (fst (VzeroSlab iDir (strained Rl e t) (corr t))) th g kDiff (gGGT (strained Rl e t)))
    (fun g => exslab_grad iDir (hlfL_of iDir Rl) (zHatOuter Rl iDir) th g kDiff (gG Rl)) (fun t => fst (VzeroSlab iDir (strained Rl e t) (corr t)))); auto.
  - apply VzeroSlab_derive; auto. apply normal_pos; [exact D|exact (proj1 Nd)].
  - intros g G H. assert (E := exslab_ok iDir Rl e c g kDiff 0 th D Nd Kn Kd (conj (Rlt_le _ _ T) H)).
    refine (is_derive_ext_loc _ _ _ _ _ E). generalize (above_loc Rl e _ th D H). apply filter_imp. intros t L.
    unfold exslab. destruct (Rlt_dec _ th); [lra|reflexivity].
  - intros g G H. split.
    + generalize (below_loc Rl e _ th D H). apply filter_imp. intros t L. unfold exslab. destruct (Rlt_dec _ th); [reflexivity|lra].
    + unfold exslab_grad. cbv zeta. rewrite <- metric_len. destruct (Rlt_dec th _); [lra|]. apply ddot_szero.
  - apply regular_split; auto.
Qed.

(** the same k-point up to a reciprocal lattice vector *)
Lemma shifted_wrong : exists grid X th kDiff Rl e, 0 < th /\ rdet Rl <> 0 /\ NoDup grid /\ In (V 0 0 0)%Z grid /\ integer3 kDiff /\
  (forall g, In g grid -> rvadd (real3 g) kDiff <> V 0 0 0 -> th < waveSq Rl (rvadd (real3 g) kDiff)) /\
  ~ is_derive (fun t => exchangeEnergy grid X (fun g => exchange (exSpherical (superRc 1 (strained Rl e t))) (fst (VzeroSpherical 1 (strained Rl e t))) th g kDiff (gGGT (strained Rl e t))) (Rabs (rdet Rl))) 0
    (ddot (exchangeStress grid X th kDiff (fun g => exchange_grad (exSpherical (superRc 1 Rl)) th g kDiff (gG Rl)) (snd (VzeroSpherical 1 Rl)) (Rabs (rdet Rl))) e).
Proof.
  set (gm := (V (-1) 0 0)%Z).
  exists [(V 0 0 0)%Z; gm]. exists (fun g => if Z.eqb (c0 g) (-1) then (1, 0) else (0, 0)). exists (1/100), (V 1 0 0), rid, rid.
  assert (P := PI_RGT_0). assert (P3 := PI2_3_2).
  assert (D : rdet rid <> 0) by (v3u; cbn; lra).
  assert (Gi : gG rid = rmscale (2 * PI) rid) by (unfold gG, rinv; v3u; cbn; f_equal; field).
  assert (M0 : forall k, metric2 (gGGT rid) k = (2 * PI) * (2 * PI) * rlen2 k).
  { intros [k0 k1 k2]. rewrite metric_len, Gi. v3u. cbn. ring. }
  assert (Zg : metric2 (gGGT rid) (rvadd (vIZR gm) (V 1 0 0)) = 0) by (rewrite M0; unfold gm; v3u; cbn; ring).
  assert (Z0 : metric2 (gGGT rid) (rvadd (vIZR (V 0 0 0)%Z) (V 1 0 0)) = (2 * PI) * (2 * PI)) by (rewrite M0; v3u; cbn; ring).
  split; [lra|split; [exact D|split; [|split; [left; reflexivity|split; [exists 1%Z, 0%Z, 0%Z; reflexivity|split]]]]].
  - constructor; [|constructor; [intros []|constructor]]. intros [H|[]]; discriminate H.
  - intros g G N. rewrite wave_metric. destruct G as [<-|[<-|[]]].
    + change (real3 (V 0 0 0)%Z) with (vIZR (V 0 0 0)%Z). rewrite Z0. nra.
    + exfalso. apply N. unfold gm, real3. v3u. cbn. f_equal; ring.
  - intros H. set (th := 1/100) in *.
    assert (E1 : ddot (exchangeStress [(V 0 0 0)%Z; gm] (fun g => if Z.eqb (c0 g) (-1) then (1, 0) else (0, 0)) th (V 1 0 0)
       (fun g => exchange_grad (exSpherical (superRc 1 rid)) th g (V 1 0 0) (gG rid)) (snd (VzeroSpherical 1 rid)) (Rabs (rdet rid))) rid = 0).
    { unfold exchangeStress. cbv zeta. rewrite ddot_rmscale. destruct (Rlt_dec (rlen2 (V 1 0 0)) th) as [L|_]; [exfalso; revert L; v3u; cbn; unfold th; lra|].
      cbn [fold_left]. rewrite !ddot_sadd, !ddot_sscale, ddot_szero. cbn [c0 gm Z.eqb].
      destruct (exchange_below_facts (fun _ => exSpherical (superRc 1 rid)) (fun _ => 0) th gm (V 1 0 0) rid rid D) as [_ ->]; [rewrite Zg; unfold th; lra|].
      unfold cnorm; cbn. ring. }
    rewrite E1 in H.
    assert (H2 : is_derive (fun t => exchangeEnergy [(V 0 0 0)%Z; gm] (fun g => if Z.eqb (c0 g) (-1) then (1, 0) else (0, 0))
       (fun g => exchange (exSpherical (superRc 1 (strained rid rid t))) (fst (VzeroSpherical 1 (strained rid rid t))) th g (V 1 0 0) (gGGT (strained rid rid t))) (Rabs (rdet rid))) 0
       (Rabs (rdet rid) * ddot (snd (VzeroSpherical 1 rid)) rid)).
    { apply (is_derive_ext_loc (fun t => Rabs (rdet rid) * fst (VzeroSpherical 1 (strained rid rid t)))).
      - assert (T : metric2 (gGGT rid) (rvadd (vIZR gm) (V 1 0 0)) < th) by (rewrite Zg; unfold th; lra).
        generalize (below_loc rid rid _ th D T). apply filter_imp. intros t L. unfold exchangeEnergy. f_equal. cbn [fold_left c0 gm Z.eqb].
        fold gm. unfold cnorm; cbn [fst snd]. unfold exchange at 2. destruct (Rlt_dec _ th); [|lra]. cbn [Pos.eqb fst snd]. generalize (fst (VzeroSpherical 1 (strained rid rid t))). intros v. generalize (exchange (exSpherical (superRc 1 (strained rid rid t))) v th (V 0 0 0)%Z (V 1 0 0) (gGGT (strained rid rid t))). intros w. ring.
      - apply is_derive_scal. apply VzeroSpherical_derive; [lra|exact D]. }
    assert (U := is_derive_unique _ _ _ H). assert (U2 := is_derive_unique _ _ _ H2). rewrite U in U2.
    unfold VzeroSpherical in U2. cbn [snd] in U2. rewrite ddot_rmscale, Rmult_0_r, erfc_0 in U2.
    assert (E : ddot rid rid = 3) by (unfold ddot; v3u; cbn; ring). rewrite E in U2.
    assert (Rd : Rabs (rdet rid) = 1) by (v3u; cbn; replace (_ + _) with 1 by ring; apply Rabs_R1). rewrite Rd in U2.
    assert (Rc : 0 < superRc 1 rid).
    { unfold superRc. rewrite Rd. apply cpow_gt0. apply Rmult_lt_0_compat; [apply Rdiv_lt_0_compat; lra|lra]. }
    assert (0 < superRc 1 rid * superRc 1 rid) by (apply Rmult_lt_0_compat; assumption). nra.
Qed.
