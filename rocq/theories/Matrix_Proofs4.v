(** Tiled block products (C55) and counterexamples for C54, C55. *)
From Coq Require Import ZArith List Bool Reals Lia Lra Permutation.
From Coquelicot Require Import Complex.
From Verif Require Import Base WorkDiv_Model Matrix_Model Matrix_Spec Matrix_Proofs Matrix_Proofs2 Matrix_Proofs3.
Import ListNotations.
Open Scope Z_scope.

Lemma div_unique_pos a b q r : 0 <= r < b -> a = b * q + r -> a / b = q /\ a mod b = r.
Proof. intros Hr E. split; [symmetry; apply (Z.div_unique a b q r); lia|symmetry; apply (Z.mod_unique a b q r); lia]. Qed.

Lemma tiledMulRight_value init m blk nBlocks phase : dims_ok m -> dims_ok blk -> 0 <= nBlocks -> nc m = nr blk * nBlocks ->
  exists r, tiledMulRight init m blk nBlocks phase = Ok r /\ nr r = nr m /\ nc r = nc blk * nBlocks /\
    forall i j, in_mat r i j -> entry r i j = Csum (fun k => Cmult (entry m i k) (tiled_entry blk phase k j)) (nc m).
Proof.
  intros [Hm1 Hm2] [Hb1 Hb2] HN Ed. unfold tiledMulRight. rewrite (proj2 (Z.eqb_eq _ _) Ed). cbn [assert nr nc].
  match goal with |- context[foldM ?f _ _] => set (body := f) end.
  set (val := fun i j => Csum (fun k => Cmult (entry m i k) (tiled_entry blk phase k j)) (nc m)).
  destruct (foldM_inv (fun B b => len b = nr m * (nc blk * nBlocks) /\
     forall i j, 0 <= i < nr m -> 0 <= j < nc blk * B -> cell b (nr m * j + i) = val i j) body 0 nBlocks
     (data (mkMat (nr m) (nc blk * nBlocks) init))) as [b [E [Hl Hv]]]; auto.
  - split; [reflexivity|]. intros; lia.
  - intros B b HB [Hl Hv]. unfold body.
    destruct (zgemm_value NoTrans NoTrans (nr m) (nc blk) (nr blk) (phase B) (data m) (B * nr blk * nr m) (nr m) (data blk) 0 (nr blk)
      (RtoC 0) b (B * nc blk * nr m) (nr m) (fun i l => entry m i (B * nr blk + l)) (fun l j => entry blk l j)) as [b' [E [El [Ev Eo]]]]; try lia.
    + intros i l Hi Hl'. cbn [opRead]. rewrite rd_ok.
      * cbn [data cell]. unfold entry. f_equal. f_equal. ring.
      * cbn [data len]. replace (B * nr blk * nr m + i + nr m * l) with (nr m * (B * nr blk + l) + i) by ring. apply mat_addr; [auto|]. rewrite Ed. nia.
    + intros l j Hl' Hj. cbn [opRead]. rewrite rd_ok.
      * cbn [data cell]. unfold entry. f_equal. f_equal. ring.
      * cbn [data len]. replace (0 + l + nr blk * j) with (nr blk * j + l) by ring. apply mat_addr; auto.
    + intros i j Hi Hj. rewrite Hl. replace (B * nc blk * nr m + i + nr m * j) with (nr m * (B * nc blk + j) + i) by ring. apply mat_addr; [auto|nia].
    + exists b'. split; [exact E|]. split; [congruence|]. intros i j Hi Hj.
      destruct (Z_lt_dec j (nc blk * B)) as [Hlt|Hge].
      * rewrite Eo; [apply Hv; lia|]. intros i' j' Hi' Hj' Ea.
        replace (B * nc blk * nr m + i' + nr m * j') with (nr m * (B * nc blk + j') + i') in Ea by ring. apply mat_addr_inj in Ea; auto. nia.
      * specialize (Ev i (j - nc blk * B) Hi ltac:(lia)).
        replace (B * nc blk * nr m + i + nr m * (j - nc blk * B)) with (nr m * j + i) in Ev by ring. rewrite Ev, gemmVal_0.
        unfold val. rewrite (Csum_window _ (nc m) (B * nr blk) (nr blk)); try nia.
        -- rewrite <- Csum_scal. apply Csum_ext. intros l Hl'. unfold tiled_entry.
           destruct (div_unique_pos (B * nr blk + l) (nr blk) B l Hl' ltac:(ring)) as [-> ->].
           destruct (div_unique_pos j (nc blk) B (j - nc blk * B) ltac:(lia) ltac:(ring)) as [-> ->].
           rewrite Z.eqb_refl. ring.
        -- intros k Hk Hnk. unfold tiled_entry.
           destruct (div_unique_pos j (nc blk) B (j - nc blk * B) ltac:(lia) ltac:(ring)) as [-> _].
           assert (Hr : 0 < nr blk) by nia.
           destruct (Z.eqb_spec (k / nr blk) B) as [Eq|]; [|ring]. exfalso. apply Hnk.
           pose proof (Z.div_mod k (nr blk) ltac:(lia)). pose proof (Z.mod_pos_bound k (nr blk) Hr). rewrite Eq in H. lia.
  - rewrite E. cbn [bind]. eexists; split; [reflexivity|]. cbn [of_buf nr nc]. repeat split; auto. intros i j [Hi Hj].
    cbn [of_buf nr nc] in Hi, Hj. unfold entry at 1. cbn [of_buf nr mcell]. apply Hv; auto.
Qed.

Lemma tiledMulLeft_value init blk nBlocks phase other : dims_ok other -> dims_ok blk -> nr blk = nc blk -> 0 <= nBlocks ->
  nc blk * nBlocks = nr other ->
  exists r, tiledMulLeft init blk nBlocks phase other = Ok r /\ nr r = nr blk * nBlocks /\ nc r = nc other /\
    forall i j, in_mat r i j -> entry r i j = Csum (fun k => Cmult (tiled_entry blk phase i k) (entry other k j)) (nr other).
Proof.
  intros [Hm1 Hm2] [Hb1 Hb2] Hsq HN Ed. unfold tiledMulLeft. rewrite (proj2 (Z.eqb_eq _ _) Ed). cbn [assert nr nc].
  match goal with |- context[foldM ?f _ _] => set (body := f) end.
  set (val := fun i j => Csum (fun k => Cmult (tiled_entry blk phase i k) (entry other k j)) (nr other)).
  set (R := nr blk * nBlocks) in *.
  assert (HR : R = nr other) by (unfold R; rewrite Hsq; auto).
  destruct (foldM_inv (fun B b => len b = R * nc other /\
     forall i j, 0 <= i < nr blk * B -> 0 <= j < nc other -> cell b (R * j + i) = val i j) body 0 nBlocks
     (data (mkMat R (nc other) init))) as [b [E [Hl Hv]]]; auto.
  - split; [reflexivity|]. intros; lia.
  - intros B b HB [Hl Hv]. unfold body.
    destruct (zgemm_value NoTrans NoTrans (nr blk) (nc other) (nc blk) (phase B) (data blk) 0 (nr blk) (data other) (B * nc blk) (nr other)
      (RtoC 0) b (B * nc blk) R (fun i l => entry blk i l) (fun l j => entry other (B * nc blk + l) j)) as [b' [E [El [Ev Eo]]]]; try lia.
    + unfold R. nia.
    + intros i l Hi Hl'. cbn [opRead]. rewrite rd_ok.
      * cbn [data cell]. unfold entry. f_equal. f_equal. ring.
      * cbn [data len]. replace (0 + i + nr blk * l) with (nr blk * l + i) by ring. apply mat_addr; auto.
    + intros l j Hl' Hj. cbn [opRead]. rewrite rd_ok.
      * cbn [data cell]. unfold entry. f_equal. f_equal. ring.
      * cbn [data len]. replace (B * nc blk + l + nr other * j) with (nr other * j + (B * nc blk + l)) by ring. apply mat_addr; [|auto]. rewrite <- Ed. nia.
    + intros i j Hi Hj. rewrite Hl. replace (B * nc blk + i + R * j) with (R * j + (B * nc blk + i)) by ring. apply mat_addr; [|auto]. unfold R. nia.
    + exists b'. split; [exact E|]. split; [congruence|]. intros i j Hi Hj.
      assert (HiR : 0 <= i < R) by (unfold R; nia).
      destruct (Z_lt_dec i (nr blk * B)) as [Hlt|Hge].
      * rewrite Eo; [apply Hv; lia|]. intros i' j' Hi' Hj' Ea.
        replace (B * nc blk + i' + R * j') with (R * j' + (B * nc blk + i')) in Ea by ring. apply mat_addr_inj in Ea; [nia|auto|unfold R; nia].
      * specialize (Ev (i - nr blk * B) j ltac:(lia) Hj).
        replace (B * nc blk + (i - nr blk * B) + R * j) with (R * j + i) in Ev by (rewrite Hsq; ring). rewrite Ev, gemmVal_0.
        unfold val. destruct (div_unique_pos i (nr blk) B (i - nr blk * B) ltac:(lia) ltac:(ring)) as [Dq Dr].
        rewrite (Csum_window _ (nr other) (B * nc blk) (nc blk)); try nia.
        -- rewrite <- Csum_scal. apply Csum_ext. intros l Hl'. unfold tiled_entry. rewrite Dq, Dr.
           destruct (div_unique_pos (B * nc blk + l) (nc blk) B l Hl' ltac:(ring)) as [-> ->].
           rewrite Z.eqb_refl. ring.
        -- intros k Hk Hnk. unfold tiled_entry. rewrite Dq.
           assert (Hr : 0 < nc blk) by nia.
           destruct (Z.eqb_spec B (k / nc blk)) as [Eq|]; [|ring]. exfalso. apply Hnk.
           pose proof (Z.div_mod k (nc blk) ltac:(lia)). pose proof (Z.mod_pos_bound k (nc blk) Hr). rewrite <- Eq in H. lia.
  - rewrite E. cbn [bind]. eexists; split; [reflexivity|]. cbn [of_buf nr nc]. repeat split; auto. intros i j [Hi Hj].
    cbn [of_buf nr nc] in Hi, Hj. unfold entry at 1. cbn [of_buf nr mcell]. apply Hv; auto.
Qed.

(** 1x2 tiles: the second block is written outside the result. *)
Lemma tiledMulLeft_wide_oob : exists blk nBlocks phase other, dims_ok blk /\ dims_ok other /\ nc blk * nBlocks = nr other /\
  forall init, tiledMulLeft init blk nBlocks phase other = OutOfBounds.
Proof.
  exists (mkMat 1 2 (fun _ => RtoC 1)), 2, (fun _ => RtoC 1), (mkMat 4 1 (fun _ => RtoC 1)).
  repeat split; try (cbn; lia).
Qed.
(** 2x1 tiles: the second block overwrites part of the first. *)
Lemma tiledMulLeft_tall_wrong : exists init blk nBlocks phase other r, dims_ok blk /\ dims_ok other /\ nc blk * nBlocks = nr other /\
  tiledMulLeft init blk nBlocks phase other = Ok r /\
  exists i j, in_mat r i j /\ entry r i j <> Csum (fun k => Cmult (tiled_entry blk phase i k) (entry other k j)) (nr other).
Proof.
  exists (fun _ => RtoC 0), (mkMat 2 1 (fun _ => RtoC 1)), 2, (fun _ => RtoC 1), (mkMat 2 1 (fun _ => RtoC 1)).
  eexists. split; [split; cbn; lia|]. split; [split; cbn; lia|]. split; [reflexivity|]. split; [reflexivity|].
  exists 3, 0. split; [unfold in_mat; cbn [nr nc of_buf]; lia|].
  cbv - [Rplus Rmult Ropp Rminus IZR Ceq_dec not].
  intros H. apply (f_equal fst) in H. cbn in H. lra.
Qed.

(** Writing a column block beyond the last column is not rejected. *)
Lemma subSet_oob : exists m v iStart iStep iStop jStart jStep jStop, dims_ok m /\ dims_ok v /\
  ~ range_ok (nc m) jStart jStep jStop /\ subSet m iStart iStep iStop jStart jStep jStop v = OutOfBounds.
Proof.
  exists (mkMat 1 1 (fun _ => RtoC 0)), (mkMat 1 1 (fun _ => RtoC 0)), 0, 1, 1, 1, 1, 2.
  repeat split; try (cbn; lia). unfold range_ok. cbn. lia.
Qed.
(** A negative start column reaches the write as well. *)
Lemma subSet_negative_col : exists m v, dims_ok m /\ dims_ok v /\ subSet m 0 1 1 (-1) 1 0 v = OutOfBounds.
Proof. exists (mkMat 1 1 (fun _ => RtoC 0)), (mkMat 1 1 (fun _ => RtoC 0)). repeat split; cbn; lia. Qed.
