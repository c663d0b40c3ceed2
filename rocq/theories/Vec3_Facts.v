(** Elementary algebra of 3-vectors and 3x3 matrices. *)
From Coq Require Import ZArith Reals List Lia Lra.
From Verif Require Import Vec3_Model.
Import ListNotations.

Ltac v3_unfold :=
  unfold rlen2, zvadd, zvsub, zvopp, zdot, zmv, zvm, zmm, zdet, zadj, zmscale, zid, zdiag,
    rvadd, rvsub, rvopp, rvscale, rdot, rcross, rmv, rvm, rmm, rmadd, rmsub, rmscale, rdet, radj, rid, rdiag,
    rtrace, rnrm2sq, vIZR, mIZR, gnrm2sq,
    gvadd, gvsub, gvopp, gvscale, gmv, gvm, gmm, gmadd, gmsub, gmscale, gdiag, gtrace, gdet, gbox, gadj, gnrm2sq,
    gdot, gcross, mtrans, set_rows, set_cols, row0, row1, row2, col0, col1, col2, vmap, mmap in *;
  cbn [c0 c1 c2 m00 m01 m02 m10 m11 m12 m20 m21 m22] in *.

Lemma vec_ext {A} (v w : vec A) : c0 v = c0 w -> c1 v = c1 w -> c2 v = c2 w -> v = w.
Proof. destruct v, w; cbn; intros; subst; reflexivity. Qed.

Ltac v3_destruct :=
  repeat match goal with v : vec _ |- _ => destruct v | m : mat _ |- _ => destruct m end.
Ltac v3_ring := intros; v3_destruct; v3_unfold; f_equal; try ring.
Ltac v3_sring := intros; v3_destruct; v3_unfold; try ring.

Lemma zmm_assoc a b c : zmm a (zmm b c) = zmm (zmm a b) c. Proof. v3_ring. Qed.
Lemma zmm_id_l a : zmm zid a = a. Proof. v3_ring. Qed.
Lemma zmm_id_r a : zmm a zid = a. Proof. v3_ring. Qed.
Lemma rmm_assoc a b c : rmm a (rmm b c) = rmm (rmm a b) c. Proof. v3_ring. Qed.
Lemma rmm_id_l a : rmm rid a = a. Proof. v3_ring. Qed.
Lemma rmm_id_r a : rmm a rid = a. Proof. v3_ring. Qed.
Lemma zmv_mm a b v : zmv (zmm a b) v = zmv a (zmv b v). Proof. v3_ring. Qed.
Lemma rmv_mm a b v : rmv (rmm a b) v = rmv a (rmv b v). Proof. v3_ring. Qed.
Lemma rvm_mm v a b : rvm v (rmm a b) = rvm (rvm v a) b. Proof. v3_ring. Qed.
Lemma zmv_id v : zmv zid v = v. Proof. v3_ring. Qed.
Lemma rmv_id v : rmv rid v = v. Proof. v3_ring. Qed.
Lemma rvm_id v : rvm v rid = v. Proof. v3_ring. Qed.
Lemma zdet_mm a b : (zdet (zmm a b) = zdet a * zdet b)%Z. Proof. v3_sring. Qed.
Lemma rdet_mm a b : (rdet (rmm a b) = rdet a * rdet b)%R. Proof. v3_sring. Qed.
Lemma zdet_id : zdet zid = 1%Z. Proof. reflexivity. Qed.
Lemma mIZR_mm a b : mIZR (zmm a b) = rmm (mIZR a) (mIZR b).
Proof. v3_ring; rewrite !plus_IZR, !mult_IZR; ring. Qed.
Lemma mIZR_id : mIZR zid = rid. Proof. reflexivity. Qed.
Lemma vIZR_mv a v : vIZR (zmv a v) = rmv (mIZR a) (vIZR v).
Proof. v3_ring; rewrite !plus_IZR, !mult_IZR; ring. Qed.
Lemma vIZR_vm a v : vIZR (zvm v a) = rvm (vIZR v) (mIZR a).
Proof. v3_ring; rewrite !plus_IZR, !mult_IZR; ring. Qed.
Lemma mIZR_det a : IZR (zdet a) = rdet (mIZR a).
Proof. v3_sring. rewrite ?plus_IZR, ?minus_IZR, ?mult_IZR, ?minus_IZR, ?mult_IZR. ring. Qed.
Lemma rmv_add a v w : rmv a (rvadd v w) = rvadd (rmv a v) (rmv a w). Proof. v3_ring. Qed.
Lemma rvm_add a v w : rvm (rvadd v w) a = rvadd (rvm v a) (rvm w a). Proof. v3_ring. Qed.
Lemma rmv_opp a v : rmv a (rvopp v) = rvopp (rmv a v). Proof. v3_ring. Qed.
Lemma rvm_opp a v : rvm (rvopp v) a = rvopp (rvm v a). Proof. v3_ring. Qed.
Lemma rvadd_assoc u v w : rvadd u (rvadd v w) = rvadd (rvadd u v) w. Proof. v3_ring. Qed.
Lemma rvadd_comm u v : rvadd u v = rvadd v u. Proof. v3_ring. Qed.
Lemma zadj_l a : zmm (zadj a) a = zmscale (zdet a) zid. Proof. v3_ring. Qed.
Lemma zadj_r a : zmm a (zadj a) = zmscale (zdet a) zid. Proof. v3_ring. Qed.
Lemma rinv_l a : rdet a <> 0%R -> rmm (rinv a) a = rid.
Proof. intros H. destruct a. unfold rinv. v3_unfold. f_equal; field; exact H. Qed.
Lemma rinv_r a : rdet a <> 0%R -> rmm a (rinv a) = rid.
Proof. intros H. destruct a. unfold rinv. v3_unfold. f_equal; field; exact H. Qed.

Lemma rdot_comm a b : rdot a b = rdot b a. Proof. v3_sring. Qed.
Lemma rdot_add_l a b c : (rdot (rvadd a b) c = rdot a c + rdot b c)%R. Proof. v3_sring. Qed.
Lemma rdot_mv_vm v a w : rdot v (rmv a w) = rdot (rvm v a) w. Proof. v3_sring. Qed.
Lemma rlen2_pos v : (0 <= rlen2 v)%R.
Proof. destruct v. v3_unfold. nra. Qed.
Lemma rnrm2sq_cols m : rnrm2sq m = (rlen2 (col0 m) + rlen2 (col1 m) + rlen2 (col2 m))%R.
Proof. v3_sring. Qed.
Lemma rnrm2sq_pos m : (0 <= rnrm2sq m)%R.
Proof. rewrite rnrm2sq_cols. pose proof (rlen2_pos (col0 m)). pose proof (rlen2_pos (col1 m)). pose proof (rlen2_pos (col2 m)). lra. Qed.
Lemma rnrm2_pos m : (0 <= rnrm2 m)%R. Proof. apply sqrt_pos. Qed.
