(** Lemmas for C36. *)
From Coq Require Import ZArith List Lia Bool QArith Permutation.
From Verif Require Import Base Grid_Model FFTBox_Model FFTBox_Spec FFTBox_Proofs FFTBox_Proofs2 FFTBox_Proofs3.
Import ListNotations.
Open Scope Z_scope.

Lemma mesh_entry_exact Sv sym rot : (forall k, (k<3)%nat -> 0 < get Sv k) -> checkFFTbox Sv sym = true -> In rot sym ->
  forall i j, (i<3)%nat -> (j<3)%nat -> mesh_entry Sv rot i j * get Sv j = get Sv i * mget rot i j.
Proof.
  intros HS Hc Hin i j Hi Hj. pose proof (proj1 (checkFFTbox_spec Sv sym HS) Hc rot Hin i j Hi Hj) as [q Q].
  unfold mesh_entry. rewrite Q. specialize (HS j Hj). rewrite Z.quot_mul by lia. reflexivity.
Qed.

Lemma get_mesh_apply Sv rot m i : (i<3)%nat -> get (mesh_apply Sv rot m) i =
  mesh_entry Sv rot i 0 * get m 0 + mesh_entry Sv rot i 1 * get m 1 + mesh_entry Sv rot i 2 * get m 2.
Proof. intros Hi. d3 Hi; reflexivity. Qed.

Lemma frac_term e s r si m : 0 < s -> 0 < si -> e * s = si * r ->
  (inject_Z r * (inject_Z m / inject_Z s) == inject_Z (e * m) / inject_Z si)%Q.
Proof.
  intros Hs Hsi E. rewrite inject_Z_mult.
  assert (A : ~ (inject_Z s == 0)%Q) by (rewrite inject_Z_injective with (b:=0); lia).
  assert (B : ~ (inject_Z si == 0)%Q) by (rewrite inject_Z_injective with (b:=0); lia).
  assert (C : (inject_Z e * inject_Z s == inject_Z si * inject_Z r)%Q) by (rewrite <- !inject_Z_mult, E; reflexivity).
  apply (Qmult_inj_r _ _ (inject_Z s * inject_Z si)%Q).
  - intros Z0. apply Qmult_integral in Z0. tauto.
  - transitivity (inject_Z si * inject_Z r * inject_Z m)%Q; [field; auto|]. rewrite <- C. field. auto.
Qed.

Lemma mesh_geometry Sv sym rot m : (forall k, (k<3)%nat -> 0 < get Sv k) -> checkFFTbox Sv sym = true -> In rot sym ->
  forall i, (i<3)%nat -> (rotate_frac rot (frac_of Sv m) i == frac_of Sv (mesh_apply Sv rot m) i)%Q.
Proof.
  intros HS Hc Hin i Hi. unfold rotate_frac, frac_of. rewrite get_mesh_apply by auto.
  pose proof (fun j Hj => mesh_entry_exact Sv sym rot HS Hc Hin i j Hi Hj) as E.
  rewrite (frac_term _ _ _ (get Sv i) (get m 0) (HS 0%nat ltac:(lia)) (HS i Hi) (E 0%nat ltac:(lia))).
  rewrite (frac_term _ _ _ (get Sv i) (get m 1) (HS 1%nat ltac:(lia)) (HS i Hi) (E 1%nat ltac:(lia))).
  rewrite (frac_term _ _ _ (get Sv i) (get m 2) (HS 2%nat ltac:(lia)) (HS i Hi) (E 2%nat ltac:(lia))).
  rewrite !inject_Z_plus. unfold Qdiv. ring.
Qed.

Lemma in_cell Sv m : In m (cell_points Sv) <-> forall k, (k<3)%nat -> 0 <= get m k < get Sv k.
Proof.
  unfold cell_points. destruct m as [[a b] c]. split.
  - intros H. apply in_flat_map in H as (x&Hx&H). apply in_flat_map in H as (y&Hy&H). apply in_map_iff in H as (z&E&Hz).
    injection E as <- <- <-. rewrite in_zrange in *. intros k Hk. d3 Hk; cbn; auto.
  - intros H. apply in_flat_map. exists a. split; [apply in_zrange, (H 0%nat); lia|].
    apply in_flat_map. exists b. split; [apply in_zrange, (H 1%nat); lia|].
    apply in_map_iff. exists c. split; [reflexivity|]. apply in_zrange, (H 2%nat); lia.
Qed.

Lemma cell_NoDup Sv : NoDup (cell_points Sv).
Proof.
  unfold cell_points. apply NoDup_flat_map; [apply zrange_NoDup| |].
  - intros a _. apply NoDup_flat_map; [apply zrange_NoDup| |].
    + intros b _. apply FinFun.Injective_map_NoDup; [|apply zrange_NoDup]. intros x y E. now injection E.
    + intros b b' x _ _ H H'. apply in_map_iff in H as (?&<-&_). apply in_map_iff in H' as (?&E&_). now injection E.
  - intros a a' x _ _ H H'. apply in_flat_map in H as (?&_&H). apply in_flat_map in H' as (?&_&H').
    apply in_map_iff in H as (?&<-&_). apply in_map_iff in H' as (?&E&_). now injection E.
Qed.

(** Congruence of mesh coordinates modulo the sample counts. *)
Definition cong (Sv m m' : V3) := forall k, (k<3)%nat -> (get Sv k | get m k - get m' k).
Lemma wrap_cong Sv m m' : (forall k, (k<3)%nat -> 0 < get Sv k) -> wrap_cell Sv m = wrap_cell Sv m' -> cong Sv m m'.
Proof.
  intros HS E k Hk. pose proof (HS k Hk).
  assert (Ek : get m k mod get Sv k = get m' k mod get Sv k).
  { unfold wrap_cell in E. injection E as E0 E1 E2. d3 Hk; auto. }
  apply Z.mod_divide; [lia|]. rewrite Zminus_mod, Ek, Z.sub_diag. apply Zmod_0_l.
Qed.
Lemma cong_eq Sv m m' : (forall k, (k<3)%nat -> 0 <= get m k < get Sv k) -> (forall k, (k<3)%nat -> 0 <= get m' k < get Sv k) ->
  cong Sv m m' -> m = m'.
Proof.
  intros H H' C. assert (E : forall k, (k<3)%nat -> get m k = get m' k).
  { intros k Hk. destruct (C k Hk) as [q Q]. specialize (H k Hk). specialize (H' k Hk).
    assert (q = 0) by nia. subst q. lia. }
  destruct m as [[a b] c], m' as [[x y] z]. pose proof (E 0%nat ltac:(lia)). pose proof (E 1%nat ltac:(lia)).
  pose proof (E 2%nat ltac:(lia)). cbn in *. congruence.
Qed.

(** The mesh map is injective modulo the box when the rotation has an integer inverse. *)
Lemma mesh_injective Sv sym rot inv m m' : (forall k, (k<3)%nat -> 0 < get Sv k) -> checkFFTbox Sv sym = true -> In rot sym ->
  integer_inverse rot inv -> cong Sv (mesh_apply Sv rot m) (mesh_apply Sv rot m') -> cong Sv m m'.
Proof.
  intros HS Hc Hin [_ Hinv] C k Hk. pose proof (HS k Hk) as Sk.
  pose proof (fun i j Hi Hj => mesh_entry_exact Sv sym rot HS Hc Hin i j Hi Hj) as E.
  set (e := mesh_entry Sv rot) in *. set (d := fun j => get m j - get m' j).
  assert (C' : forall i, (i<3)%nat -> exists q, e i 0%nat * d 0%nat + e i 1%nat * d 1%nat + e i 2%nat * d 2%nat = q * get Sv i).
  { intros i Hi. destruct (C i Hi) as [q Q]. exists q. rewrite <- Q, !get_mesh_apply by auto. subst d e. ring. }
  (* multiply row i by S0 S1 S2 / S_i *)
  set (P := get Sv 0 * get Sv 1 * get Sv 2).
  pose proof (HS 0%nat ltac:(lia)) as S0. pose proof (HS 1%nat ltac:(lia)) as S1. pose proof (HS 2%nat ltac:(lia)) as S2.
  (* rot_ij * (P/S_j) * d_j summed over j = q_i * P *)
  set (x := fun j : nat => match j with O => get Sv 1 * get Sv 2 * d 0%nat | 1%nat => get Sv 0 * get Sv 2 * d 1%nat | _ => get Sv 0 * get Sv 1 * d 2%nat end).
  assert (X : forall i, (i<3)%nat -> exists q, mget rot i 0 * x 0%nat + mget rot i 1 * x 1%nat + mget rot i 2 * x 2%nat = q * P).
  { intros i Hi. destruct (C' i Hi) as [q Q]. exists q. specialize (HS i Hi).
    pose proof (E i 0%nat Hi ltac:(lia)) as E0. pose proof (E i 1%nat Hi ltac:(lia)) as E1. pose proof (E i 2%nat Hi ltac:(lia)) as E2.
    apply (Z.mul_reg_l _ _ (get Sv i)); [lia|].
    transitivity ((get Sv i * mget rot i 0) * x 0%nat + (get Sv i * mget rot i 1) * x 1%nat + (get Sv i * mget rot i 2) * x 2%nat); [ring|].
    rewrite <- E0, <- E1, <- E2. subst x P. cbv beta iota.
    transitivity ((e i 0%nat * d 0%nat + e i 1%nat * d 1%nat + e i 2%nat * d 2%nat) * (get Sv 0 * get Sv 1 * get Sv 2)); [ring|].
    rewrite Q. ring. }
  destruct (X 0%nat ltac:(lia)) as [q0 Q0]. destruct (X 1%nat ltac:(lia)) as [q1 Q1]. destruct (X 2%nat ltac:(lia)) as [q2 Q2].
  (* invert: x_k = (sum_i inv_ki q_i) P *)
  assert (XK : x k = (mget inv k 0 * q0 + mget inv k 1 * q1 + mget inv k 2 * q2) * P).
  { transitivity (mget inv k 0 * (q0 * P) + mget inv k 1 * (q1 * P) + mget inv k 2 * (q2 * P)); [|ring].
    rewrite <- Q0, <- Q1, <- Q2.
    pose proof (Hinv k 0%nat Hk ltac:(lia)) as I0. pose proof (Hinv k 1%nat Hk ltac:(lia)) as I1. pose proof (Hinv k 2%nat Hk ltac:(lia)) as I2.
    transitivity ((mget inv k 0 * mget rot 0 0 + mget inv k 1 * mget rot 1 0 + mget inv k 2 * mget rot 2 0) * x 0%nat
      + (mget inv k 0 * mget rot 0 1 + mget inv k 1 * mget rot 1 1 + mget inv k 2 * mget rot 2 1) * x 1%nat
      + (mget inv k 0 * mget rot 0 2 + mget inv k 1 * mget rot 1 2 + mget inv k 2 * mget rot 2 2) * x 2%nat); [|ring].
    rewrite I0, I1, I2. d3 Hk; cbn [Nat.eqb]; ring. }
  exists (mget inv k 0 * q0 + mget inv k 1 * q1 + mget inv k 2 * q2).
  change (d k = (mget inv k 0 * q0 + mget inv k 1 * q1 + mget inv k 2 * q2) * get Sv k).
  set (t := mget inv k 0 * q0 + _ + _) in *. clearbody t. subst x P.
  d3 Hk; cbv beta iota in XK.
  - apply (Z.mul_reg_l _ _ (get Sv 1 * get Sv 2)); [nia|]. rewrite XK. ring.
  - apply (Z.mul_reg_l _ _ (get Sv 0 * get Sv 2)); [nia|]. rewrite XK. ring.
  - apply (Z.mul_reg_l _ _ (get Sv 0 * get Sv 1)); [nia|]. rewrite XK. ring.
Qed.

Lemma mesh_permutation Sv sym rot inv : (forall k, (k<3)%nat -> 0 < get Sv k) -> checkFFTbox Sv sym = true -> In rot sym ->
  integer_inverse rot inv ->
  Permutation (map (fun m => wrap_cell Sv (mesh_apply Sv rot m)) (cell_points Sv)) (cell_points Sv).
Proof.
  intros HS Hc Hin HI. apply injective_self_permutation; [apply cell_NoDup| |].
  - intros m _. apply in_cell. intros k Hk. pose proof (HS k Hk). unfold wrap_cell. d3 Hk; cbn [get fst snd]; apply Z.mod_pos_bound; auto.
  - intros m m' Hm Hm' E. rewrite in_cell in Hm, Hm'. apply (cong_eq Sv); auto.
    apply (mesh_injective Sv sym rot inv); auto. apply wrap_cong; auto.
Qed.
