(** Grid edges and examples. *)
From Coq Require Import ZArith Reals List Bool Lia Lra Psatz.
From Verif Require Import Base RealUtil Grid_Model Grid_Spec Grid_Proofs Vec3_Model Vec3_Facts Coulomb_Proofs Lattice_Model CellMap_Proofs2 ExKernel_Model ExKernel_Spec ExKernel_Proofs ExKernel_Proofs2 ExKernel_Proofs3.
Import ListNotations.
Local Open Scope R_scope.

Lemma small_shift S g n : pos3 S -> G_point S g -> (forall k, (k < 3)%nat -> 2 * Z.abs (comp n k) < comp S k)%Z -> inShift S g n.
Proof.
  intros Ps G H k K. specialize (H k K). destruct S as [[a b] c], g as [[x y] z], n as [[p q] r]. destruct G as (X & Y & Z1). destruct k as [|[|[|k]]]; [| | |lia]; cbn in *; lia.
Qed.
Lemma int_near (n m : Z) (t : R) : t <= 1/2 -> Rabs (IZR m - IZR n) < t -> m = n.
Proof.
  intros T H. apply Rabs_def2 in H. rewrite <- minus_IZR in H. assert (A : IZR (-1) < IZR (m - n) < IZR 1) by (cbn; lra). destruct A as [A B]. apply lt_IZR in A. apply lt_IZR in B. lia.
Qed.
Lemma dk_zero : dkArr [V 0 0 0] = [V 0 0 0].
Proof.
  assert (H : 0 - 0 - IZR (rfloor (0 - 0 + 1/2)) = 0) by (rewrite (rfloor_unique (0 - 0 + 1/2) 0) by lra; lra).
  change (dkArr [V 0 0 0]) with [V (0 - 0 - IZR (rfloor (0 - 0 + 1/2))) (0 - 0 - IZR (rfloor (0 - 0 + 1/2))) (0 - 0 - IZR (rfloor (0 - 0 + 1/2)))]. rewrite H. reflexivity.
Qed.
Lemma rround_0 : rround 0 = 0%Z. Proof. exact (rround_IZR 0). Qed.
Lemma roundError_int a b c : roundError (V (IZR a) (IZR b) (IZR c)) = 0.
Proof.
  unfold roundError. change (roundVec (V (IZR a) (IZR b) (IZR c))) with (V (rround (IZR a)) (rround (IZR b)) (rround (IZR c))). rewrite !rround_IZR.
  unfold rlen. replace (rlen2 _) with 0; [apply sqrt_0|]. v3u. cbn. ring.
Qed.
Lemma edge_wrong : exists S super thr kmesh kDiff g, pos3 S /\ (forall k, (k < 3)%nat -> 1 <= colSum super k)%Z /\ 0 < thr /\ thr <= 1/2 /\
  (forall dk, In dk (dkArr kmesh) -> roundError (rvm dk (mIZR super)) < thr) /\ (exists k, In k kmesh /\ circDistanceSquared (rvsub k (hd (V 0 0 0) kmesh)) kDiff < thr * thr) /\ G_point S g /\
  forall A (dataSuper : Z -> A) kernelData (K : V3 -> A), even K -> half_stores (Ssuper S super) dataSuper K ->
    (forall ik dk, nth_error (dkArr kmesh) ik = Some dk -> full_stores S (kernelData ik) (extractExchangeKernel thr (Ssuper S super) super dk dataSuper)) ->
    exists m, numericalKernel thr S kernelData (dkArr kmesh) 0 kDiff g = Some (K m) /\ comp m 0 = (-1)%Z /\ superCoord super g kDiff 0 = 3.
Proof.
  exists (4, 1, 1)%Z, zid, (1/10000), [V 0 0 0], (V 1 0 0), (2, 0, 0)%Z. rewrite dk_zero.
  assert (C : forall k, (k < 3)%nat -> (1 <= colSum zid k)%Z) by (intros k K; destruct k as [|[|[|k]]]; [| | |lia]; vm_compute; discriminate).
  assert (M : forall dk, In dk [V 0 0 0] -> roundError (rvm dk (mIZR zid)) < 1/10000).
  { intros dk [<-|[]]. replace (rvm (V 0 0 0) (mIZR zid)) with (V (IZR 0) (IZR 0) (IZR 0)) by (unfold zid; v3u; cbn; f_equal; ring). rewrite roundError_int. lra. }
  assert (X : exists k, In k [V 0 0 0] /\ circDistanceSquared (rvsub k (hd (V 0 0 0) [V 0 0 0])) (V 1 0 0) < 1/10000 * (1/10000)).
  { exists (V 0 0 0). split; [left; reflexivity|]. cbn [hd]. change (rvsub (V 0 0 0) (V 0 0 0)) with (V (0 - 0) (0 - 0) (0 - 0)). unfold circDistanceSquared. cbn [c0 c1 c2].
    assert (Q : circ1 (0 - 0) 0 = 0) by (rewrite circ1_sin; replace (PI * (0 - 0 - 0)) with 0 by ring; rewrite sin_0; ring). rewrite Q.
    assert (Q1 : circ1 (0 - 0) 1 = 0) by (rewrite circ1_sin; replace (PI * (0 - 0 - 1)) with (- PI) by ring; rewrite sin_neg, sin_PI; ring). rewrite Q1. lra. }
  split; [cbn; lia|split; [exact C|split; [lra|split; [lra|split; [exact M|split; [exact X|split; [cbn; lia|]]]]]]].
  intros A dataSuper kernelData K Ev St Fill. rewrite <- dk_zero in Fill, M |- *.
  assert (Nn : forall n, shift_near (1/10000) (V 0 0 0) (V 1 0 0) n -> n = (1, 0, 0)%Z).
  { intros [[p q] r] (N0 & N1 & N2). cbn [c0 c1 c2 comp] in *. f_equal; [f_equal|].
    - apply (int_near 1 p (1/10000)); [lra|]. rewrite Rabs_minus_sym. replace (1 - IZR p) with (1 - 0 - IZR p) by ring. exact N0.
    - apply (int_near 0 q (1/10000)); [lra|]. rewrite Rabs_minus_sym. replace (0 - IZR q) with (0 - 0 - IZR q) by ring. exact N1.
    - apply (int_near 0 r (1/10000)); [lra|]. rewrite Rabs_minus_sym. replace (0 - IZR r) with (0 - 0 - IZR r) by ring. exact N2. }
  destruct (numerical_reads (4, 1, 1)%Z zid (1/10000) [V 0 0 0] dataSuper kernelData K) with (kDiff := V 1 0 0) (g := (2, 0, 0)%Z) as (dk & n & g' & m & I & Nr & G & Al & E & B); auto; try lra; [cbn; lia| |].
  - intros dk n I Nr. rewrite dk_zero in I. destruct I as [<-|[]]. rewrite (Nn n Nr). intros k Hk. destruct k as [|[|[|k]]]; [| | |lia]; cbn; lia.
  - rewrite dk_zero in I. destruct I as [<-|[]]. rewrite (Nn n Nr) in Al. exists m. split; [exact E|split].
    + assert (g' = (-1, 0, 0)%Z). { symmetry. apply (alias_unique (4, 1, 1)%Z); [cbn; lia|exact G|]. destruct g' as [[x y] z]. exact Al. }
      subst g'. assert (B0 := B 0%nat ltac:(lia)). apply (int_near (-1) _ (1/10000)); [lra|]. replace (IZR (-1)) with (superCoord zid (-1, 0, 0)%Z (V 0 0 0) 0); [exact B0|]. unfold superCoord, zid, mget. cbn. ring.
    + unfold superCoord, zid, mget. cbn. ring.
Qed.
Definition exSuper : mat Z := (M 2 0 0 0 2 0 0 0 1)%Z.
Lemma example_super : pos3 (6, 5, 4)%Z /\ (forall k, (k < 3)%nat -> 1 <= colSum exSuper k)%Z /\ Ssuper (6, 5, 4)%Z exSuper = (16, 12, 6)%Z /\ G_point (6, 5, 4)%Z (3, -2, -1)%Z /\
  roundError (rvm (V (-1/2) 0 0) (mIZR exSuper)) < 1/10000 /\ halfBox (V (-1/2) 0 0) /\ @even Z (fun g => let '(x, y, z) := g in x * x + y * y + z * z)%Z.
Proof.
  split; [cbn; lia|split; [intros k K; destruct k as [|[|[|k]]]; [| | |lia]; vm_compute; discriminate|split; [vm_compute; reflexivity|split; [cbn; lia|split; [|split]]]]].
  - replace (rvm (V (-1/2) 0 0) (mIZR exSuper)) with (V (IZR (-1)) (IZR 0) (IZR 0)) by (unfold exSuper; v3u; cbn; f_equal; field). rewrite roundError_int. lra.
  - unfold halfBox. cbn. lra.
  - intros [[x y] z]. cbn. ring.
Qed.
