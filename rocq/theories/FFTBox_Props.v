(** Properties C05 and C36. *)
From Coq Require Import ZArith List Lia Bool QArith Permutation.
From Verif Require Import Base Grid_Model FFTBox_Model FFTBox_Spec FFTBox_Proofs FFTBox_Proofs2 FFTBox_Proofs3 FFTBox_Proofs4.
Import ListNotations.
Open Scope Z_scope.

(** C05: for positive minimum counts and any integer matrices, the search terminates, with a result that does
    not depend on the fuel; each sample count reaches the minimum, is even and factors into
    2, 3, 5, 7 only; the box is compatible with every matrix and is accepted by checkFFTbox. *)
Theorem C05_automatic_box : forall Smin sym, (forall k, (k<3)%nat -> 0 < get Smin k) ->
  exists N Sv, (forall fuel, (N <= fuel)%nat -> chooseS fuel Smin sym = Some Sv) /\
    (forall k, (k<3)%nat -> get Smin k <= get Sv k /\ Z.even (get Sv k) = true /\ smooth (get Sv k)) /\
    (forall rot, In rot sym -> mesh_compatible (get Sv) (mget rot)) /\ checkFFTbox Sv sym = true.
Proof. exact chooseS_spec. Qed.
Print Assumptions C05_automatic_box.

(** fftSuitable decides exactly the 2,3,5,7-smooth numbers. *)
Theorem C05_fftSuitable_decides : forall fuel n, 0 < n <= Z.of_nat fuel ->
  exists b, fftSuitable fuel n = Some b /\ (b = true <-> smooth n).
Proof. exact fftSuitable_spec. Qed.
Print Assumptions C05_fftSuitable_decides.

(** The positivity hypothesis is needed: with no cutoff (Smin stays 0, GridInfo.cpp:204 not taken) the search
    never ends, because fftSuitable(0) divides 0 by 2 forever. *)
Theorem C05_no_cutoff_terminates_refuted : exists Smin sym, forall fuel, chooseS fuel Smin sym = None.
Proof. exists (0,0,0), []. exact chooseS_nocutoff_diverges. Qed.
Print Assumptions C05_no_cutoff_terminates_refuted.

(** C36: the box check accepts exactly the compatible boxes. *)
Theorem C36_checkFFTbox_exact : forall Sv sym, (forall k, (k<3)%nat -> 0 < get Sv k) ->
  (checkFFTbox Sv sym = true <-> forall rot, In rot sym -> mesh_compatible (get Sv) (mget rot)).
Proof. exact checkFFTbox_spec. Qed.
Print Assumptions C36_checkFFTbox_exact.

(** C36: an accepted rotation takes every mesh point to the mesh point given by the mesh matrix. *)
Theorem C36_rotation_stays_on_mesh : forall Sv sym rot m, (forall k, (k<3)%nat -> 0 < get Sv k) ->
  checkFFTbox Sv sym = true -> In rot sym ->
  forall i, (i<3)%nat -> (rotate_frac rot (frac_of Sv m) i == frac_of Sv (mesh_apply Sv rot m) i)%Q.
Proof. exact mesh_geometry. Qed.
Print Assumptions C36_rotation_stays_on_mesh.

(** C36: with an integer inverse (every lattice symmetry has one), it permutes the mesh points of one cell. *)
Theorem C36_rotation_permutes_mesh : forall Sv sym rot inv, (forall k, (k<3)%nat -> 0 < get Sv k) ->
  checkFFTbox Sv sym = true -> In rot sym -> integer_inverse rot inv ->
  Permutation (map (fun m => wrap_cell Sv (mesh_apply Sv rot m)) (cell_points Sv)) (cell_points Sv).
Proof. exact mesh_permutation. Qed.
Print Assumptions C36_rotation_permutes_mesh.

(** Hexagonal rotation by 60 degrees and a swap of the last two axes with unequal minima. *)
Example C05_example_hex : chooseS 200 (17,17,30) [((1,-1,0),(1,0,0),(0,0,1))] = Some (18,18,30).
Proof. vm_compute. reflexivity. Qed.
Example C05_example_aniso : chooseS 400 (10,19,50) [((1,0,0),(2,1,0),(0,0,1))] = Some (40,20,50)
  /\ checkFFTbox (40,20,50) [((1,0,0),(2,1,0),(0,0,1))] = true /\ checkFFTbox (40,19,50) [((1,0,0),(2,1,0),(0,0,1))] = false.
Proof. split; [vm_compute; reflexivity|]. split; vm_compute; reflexivity. Qed.
Example C36_example : checkFFTbox (4,4,2) [((0,-1,0),(1,0,0),(0,0,1))] = true
  /\ integer_inverse ((0,-1,0),(1,0,0),(0,0,1)) ((0,1,0),(-1,0,0),(0,0,1))
  /\ wrap_cell (4,4,2) (mesh_apply (4,4,2) ((0,-1,0),(1,0,0),(0,0,1)) (1,3,1)) = (1,1,1).
Proof. split; [reflexivity|]. split; [|reflexivity]. split; intros i k Hi Hk; d3 Hi; d3 Hk; reflexivity. Qed.
