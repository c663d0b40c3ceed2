(** Remaining facts and examples for k-points. *)
From Coq Require Import ZArith Reals List Lia Lra Bool.
From Verif Require Import Base WorkDiv_Model Vec3_Model Vec3_Facts Lattice_Model RealUtil KPoints_Model KPoints_Spec KPoints_Proofs KPoints_Proofs2 KPoints_Proofs3 KPoints_Proofs4.
Import ListNotations.
Open Scope R_scope.

Lemma fold_totals n qs out : (0 < c0 n)%Z /\ (0 < c1 n)%Z /\ (0 < c2 n)%Z -> kpointsFold n qs = Some out ->
  Z.of_nat (List.length out) = (c0 n * c1 n * c2 n * Z.of_nat (List.length qs))%Z /\
  total (map q_w out) = total (map q_w qs) /\
  (ForallOrdPairs (fun p p' => ~ congV (q_k p) (q_k p')) qs -> ForallOrdPairs (fun p p' => ~ congV (q_k p) (q_k p')) out).
Proof.
  intros Hn H. destruct (kpointsFold_spec n qs out Hn H) as (bs&->&F). destruct (folded_totals _ _ _ F). split; [auto|split; [auto|]].
  apply (folded_distinct n qs bs F).
Qed.

Lemma reduce_procs find sym inv qs n n' : (0 < n)%Z -> (0 < n')%Z -> reduceKmesh find sym inv qs n = reduceKmesh find sym inv qs n'.
Proof. intros H H'. rewrite (kmap_procs_irrelevant _ _ _ _ n), (kmap_procs_irrelevant _ _ _ _ n') by auto. reflexivity. Qed.

Lemma needs_group : exists find sym qs, In zid sym /\ closed_under_inverse (zmm cyc cyc :: sym) /\ distinct_mesh qs /\
  exact_lookup sym qs find /\ exists red m, reduceKmesh find sym false qs 1 = Some (red,m) /\
  total (map q_w qs) = 1 /\ total (map q_w red) <> 1.
Proof.
  exists find3, [zid; cyc], mesh3. split; [cbn; auto|]. split.
  { intros a [<-|[<-|[<-|[]]]]; [exists cyc|exists zid|exists (zmm cyc cyc)]; cbn; repeat split; auto. }
  split; [apply mesh3_distinct|]. split; [apply find3_exact; intros r [<-|[<-|[]]]; auto|].
  destruct two_symmetries_double_count as (red&m&E&W1&W2). exists red, m. split; auto. split; auto. rewrite W1. lra.
Qed.

Lemma group3 : is_group [zid; cyc; cyc2].
Proof.
  split; [cbn; auto|]. split.
  - intros a b Ha Hb. destruct Ha as [<-|[<-|[<-|[]]]], Hb as [<-|[<-|[<-|[]]]]; vm_compute; auto.
  - intros a [<-|[<-|[<-|[]]]]; [exists zid|exists cyc2|exists cyc]; cbn; repeat split; auto.
Qed.
Lemma threefold_example : is_group [zid; cyc; cyc2] /\ distinct_mesh mesh3 /\ exact_lookup [zid; cyc; cyc2] mesh3 find3 /\
  exists r m, reduceKmesh find3 [zid; cyc; cyc2] true mesh3 2 = Some ([r],m) /\ q_w r = 1.
Proof.
  assert (X : exact_lookup [zid; cyc; cyc2] mesh3 find3) by (apply find3_exact; intros r [<-|[<-|[<-|[]]]]; auto).
  split; [apply group3|]. split; [apply mesh3_distinct|]. split; [exact X|].
  destruct (reduceKmesh_correct find3 [zid; cyc; cyc2] true mesh3 2) as (red&m&E&K); [reflexivity|reflexivity|apply group3|apply mesh3_distinct|exact X|lia|].
  rewrite E.
  assert (R : forall r r', In r red -> In r' red -> related [zid; cyc; cyc2] true (q_k r) (q_k r')).
  { intros r r' Hr Hr'. destruct (kr_from_mesh _ _ _ _ _ _ K r Hr) as (q&Hq&->&_). destruct (kr_from_mesh _ _ _ _ _ _ K r' Hr') as (q'&Hq'&->&_).
    assert (Base : forall q, In q mesh3 -> related [zid; cyc; cyc2] true (V (1/2) 0 0) (q_k q)).
    { intros p [<-|[<-|[<-|[]]]]; [exists zid|exists cyc|exists cyc2]; (split; [cbn; auto|left]); (split; [|split]); exists 0%Z; vals. }
    eapply related_trans; [apply group3|apply related_sym; [apply group3|]; apply Base; auto|apply Base; auto]. }
  destruct red as [|r [|r' red]].
  - exfalso. destruct (kr_covers _ _ _ _ _ _ K (QN (V (1/2) 0 0) 0 (1/3))) as (r&[]&_). cbn; auto.
  - exists r, m. split; auto. pose proof (kr_weight _ _ _ _ _ _ K) as W. cbn in W. lra.
  - exfalso. pose proof (kr_one_per_orbit _ _ _ _ _ _ K) as O. inversion O as [|? ? F _]; subst. inversion F; subst. apply H1. apply R; cbn; auto.
Qed.

Lemma spin_example :
  map q_spin (expandSpins SpinZ [QN (V 0 0 0) 0 (1/4); QN (V (1/2) 0 0) 0 (3/4)]) = [1; 1; -1; -1]%Z /\
  total (map q_w (expandSpins SpinZ [QN (V 0 0 0) 0 (1/4); QN (V (1/2) 0 0) 0 (3/4)])) = 2.
Proof. split; [reflexivity|]. cbn. lra. Qed.

Lemma fmodp x n r : x = IZR n + r -> 0 <= r < 1 -> fmodPositive x 1 = r.
Proof.
  intros E Hr. destruct (fmodPositive_1 x) as (B&(k&C)). set (y := fmodPositive x 1) in *. clearbody y.
  assert (D : y - r = IZR (k + n)) by (rewrite plus_IZR; lra).
  assert (A : -1 < IZR (k+n) < 1) by lra. destruct A as (A1&A2). apply lt_IZR in A1, A2. assert (Z0 : (k+n = 0)%Z) by lia. rewrite Z0 in D. lra.
Qed.
Lemma fold_example : exists out,
  kpointsFold (V 2 1 1)%Z [QN (V (5/4) 0 (-1/3)) 0 1] = Some out /\ map q_w out = [1/2; 1/2] /\
  map (fun q => c0 (q_k q)) out = [1/8; -(3/8)].
Proof.
  unfold kpointsFold. cbn [map q_w sumR fold_left]. unfold sumR. cbn [fold_left].
  destruct (Rlt_dec _ _) as [L|_].
  { exfalso. replace (0 + 1 - 1) with 0 in L by ring. rewrite Rabs_R0 in L. lra. }
  eexists. split; [reflexivity|]. cbn [flat_map app]. unfold regularize. cbn [q_k q_spin q_w vmap].
  unfold vmap. cbn [c0 c1 c2]. rewrite (fmodp (5/4) 1 (1/4)) by lra.
  unfold fold_one. cbn [c0 c1 c2 q_k q_spin q_w].
  change (zrange 0 2) with [0;1]%Z. change (zrange 0 1) with [0]%Z. cbn [flat_map map app q_w q_k c0]. 
  split.
  - repeat f_equal; cbn; lra.
  - unfold fold1. destruct (Rlt_dec (1/2) ((1/4 + 0)/2)); [lra|]. destruct (Rlt_dec (1/2) ((1/4 + 1)/2)); [|lra]. f_equal; [lra|f_equal; lra].
Qed.
