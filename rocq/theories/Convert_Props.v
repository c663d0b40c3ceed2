(** C38: conversions between half and full reciprocal space and between grids.  Every theorem is closed by a lemma of Convert_Proofs. *)
From Coq Require Import ZArith Reals List Lia.
From Coquelicot Require Import Complex.
From Verif Require Import Base Grid_Model Grid_Spec Convert_Model Convert_Spec Convert_Proofs.
Open Scope Z_scope.

(** Expanding the coefficients of a real field: every full coefficient is set (whatever the memory held), the result has Hermitian symmetry and
    agrees with the half-space data, for every number of threads and every order of the threads' stores. *)
Theorem C38_expand_hermitian : forall nT S s h r, pos3 S -> 0 < nT -> hermitian_half S h -> Complex_run nT S s h r ->
  hermitian_full S r /\ forall g, halfG_point S g -> coefF S r g = Cmult (RtoC s) (coefH S h g).
Proof. exact complex_hermitian. Qed.
Print Assumptions C38_expand_hermitian.
Example C38_expand_hermitian_ex : pos3 (4,3,6) /\ (exists r, Complex_run 3 (4,3,6) 2 (fun _ => RtoC 1) r) /\ hermitian_half (4,3,6) (fun _ => RtoC 1).
Proof.
  assert (P : pos3 (4,3,6)) by (cbn; lia). split; auto. split; [apply half_runs_exist; auto; lia|].
  intros g g' _ _ _. unfold coefH, Cconj, RtoC. cbn. f_equal. ring.
Qed.

(** Converting back returns the original, with no imaginary part. *)
Theorem C38_convert_back : forall nT S s t h v r, pos3 S -> 0 < nT -> hermitian_half S h -> Complex_run nT S s h v -> Real_run nT S t v r ->
  forall g, halfG_point S g -> coefH S r g = Cmult (RtoC (t * s)) (coefH S h g).
Proof. exact real_of_complex. Qed.
Print Assumptions C38_convert_back.
Theorem C38_convert_back_imag : forall nT S s t h v r, pos3 S -> 0 < nT -> hermitian_half S h -> Complex_run nT S s h v -> Imag_run nT S t v r ->
  forall g, halfG_point S g -> coefH S r g = RtoC 0.
Proof. exact imag_of_complex. Qed.
Print Assumptions C38_convert_back_imag.

(** Any complex field is its real part plus i times its imaginary part, and both parts are real fields. *)
Theorem C38_real_imag_recombine : forall nT S s v re im vr vi, pos3 S -> 0 < nT -> Real_run nT S s v re -> Imag_run nT S s v im -> Complex_run nT S 1 re vr -> Complex_run nT S 1 im vi ->
  forall g, Cplus (coefF S vr g) (Cmult Ci (coefF S vi g)) = Cmult (RtoC s) (coefF S v g).
Proof. exact recombine. Qed.
Print Assumptions C38_real_imag_recombine.
Theorem C38_parts_are_real_fields : forall nT S s v re im, pos3 S -> 0 < nT -> Real_run nT S s v re -> Imag_run nT S s v im -> hermitian_half S re /\ hermitian_half S im.
Proof. exact (fun nT S s v re im H HT R I => conj (real_hermitian nT S s v re H HT R) (imag_hermitian nT S s v im H HT I)). Qed.
Print Assumptions C38_parts_are_real_fields.
Example C38_parts_ex : forall v, exists re im, Real_run 2 (2,3,4) 1 v re /\ Imag_run 2 (2,3,4) 1 v im.
Proof.
  intros v. assert (P : pos3 (2,3,4)) by (cbn; lia). destruct (half_runs_exist 2 (2,3,4) 1 v P eq_refl) as ((re&R)&(im&I)&_). eauto.
Qed.

(** Changing the grid keeps the coefficients representable on both grids and zeroes the others. *)
Theorem C38_changeGrid : forall nT Sin Sout inp r, pos3 Sin -> pos3 Sout -> 0 < nT -> changeGrid_run nT Sin Sout inp r ->
  forall g, halfG_point Sout g -> (halfG_point Sin g -> coefH Sout r g = coefH Sin inp g) /\ (~ halfG_point Sin g -> coefH Sout r g = RtoC 0).
Proof. exact changeGrid_value. Qed.
Print Assumptions C38_changeGrid.
Example C38_changeGrid_ex : forall inp, exists r, changeGrid_run 2 (4,6,3) (6,5,4) inp r.
Proof. intros. apply changeGrid_exists; [cbn; lia..|lia]. Qed.
(** The full-space loop needs at most as many threads as points (see C04). *)
Theorem C38_changeGridFull : forall nT Sin Sout inp r, pos3 Sin -> pos3 Sout -> 0 < nT -> nT <= nr (Smax Sin Sout) -> changeGridFull_run nT Sin Sout inp r ->
  forall g, G_point Sout g -> (G_point Sin g -> coefF Sout r g = coefF Sin inp g) /\ (~ G_point Sin g -> coefF Sout r g = RtoC 0).
Proof. exact changeGridFull_value. Qed.
Print Assumptions C38_changeGridFull.

(** Up then down is the identity on the stored array. *)
Theorem C38_up_down : forall nT S S' inp up down, pos3 S -> pos3 S' -> 0 < nT -> le3 S S' -> changeGrid_run nT S S' inp up -> changeGrid_run nT S' S up down ->
  forall i, 0 <= i < nG S -> down i = inp i.
Proof. exact up_down. Qed.
Print Assumptions C38_up_down.
Theorem C38_up_down_full : forall nT S S' inp up down, pos3 S -> pos3 S' -> 0 < nT -> nT <= nr S -> le3 S S' -> changeGridFull_run nT S S' inp up -> changeGridFull_run nT S' S up down ->
  forall i, 0 <= i < nr S -> down i = inp i.
Proof. exact up_down_full. Qed.
Print Assumptions C38_up_down_full.
Example C38_up_down_ex : le3 (4,5,6) (4,6,9) /\ forall inp, exists up down, changeGrid_run 2 (4,5,6) (4,6,9) inp up /\ changeGrid_run 2 (4,6,9) (4,5,6) up down.
Proof.
  split; [unfold le3; cbn; lia|]. intros inp. assert (P : pos3 (4,5,6)) by (cbn; lia). assert (P' : pos3 (4,6,9)) by (cbn; lia).
  destruct (changeGrid_exists 2 _ _ inp P P' eq_refl) as (up&U). destruct (changeGrid_exists 2 _ _ up P' P eq_refl) as (down&D). eauto.
Qed.

(** A real field stays a real field if it has no component at the Nyquist frequency of the smaller grid in the directions that change ... *)
Theorem C38_changeGrid_real_field : forall nT Sin Sout inp r, pos3 Sin -> pos3 Sout -> 0 < nT -> changeGrid_run nT Sin Sout inp r -> hermitian_half Sin inp ->
  (forall g, halfG_point Sin g -> halfG_point Sout g -> ~ no_split Sin Sout g -> coefH Sin inp g = RtoC 0) -> hermitian_half Sout r.
Proof. exact changeGrid_hermitian. Qed.
Print Assumptions C38_changeGrid_real_field.
Example C38_changeGrid_real_field_ex : no_split (4,5,6) (6,5,8) (1,-2,2) /\ ~ no_split (4,5,6) (6,5,8) (2,0,0).
Proof. cbn. lia. Qed.
(** ... but not in general: on an even grid the Nyquist coefficient is carried to one of the two conjugate points of the larger grid only, *)
Theorem C38_changeGrid_up_real_field_refuted : exists nT Sin Sout inp r, pos3 Sin /\ pos3 Sout /\ 0 < nT /\ le3 Sin Sout /\ hermitian_half Sin inp /\ changeGrid_run nT Sin Sout inp r /\ ~ hermitian_half Sout r.
Proof. exact up_not_hermitian. Qed.
Print Assumptions C38_changeGrid_up_real_field_refuted.
(** and on the way down the smaller grid's Nyquist coefficient receives one of two conjugate values instead of their sum. *)
Theorem C38_changeGrid_down_real_field_refuted : exists nT Sin Sout inp r, pos3 Sin /\ pos3 Sout /\ 0 < nT /\ le3 Sout Sin /\ hermitian_half Sin inp /\ changeGrid_run nT Sin Sout inp r /\ ~ hermitian_half Sout r.
Proof. exact down_not_hermitian. Qed.
Print Assumptions C38_changeGrid_down_real_field_refuted.
