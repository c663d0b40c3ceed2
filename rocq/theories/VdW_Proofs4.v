(** D3: forces and lattice derivative, including the dependence through coordination numbers. *)
From Coq Require Import ZArith Reals List Bool Lia Lra Psatz.
From Coquelicot Require Import Coquelicot.
From Verif Require Import Base WorkDiv_Model Grid_Model Vec3_Model Vec3_Facts Lattice_Model RealUtil Coulomb_Model Coulomb_Proofs Coulomb_Proofs3 WS_Model Ions_Model CellMap_Spec CellMap_Proofs VdW_Model VdW_Spec VdW_Proofs VdW_Proofs2 VdW_Proofs3.
Import ListNotations.
Local Open Scope R_scope.
Set Bullet Behavior "Strict Subproofs".

Definition ind (c d : nat) (x : R) : R := if (c =? d)%nat then x else 0.
Definition sum2 (n : nat) (F : nat -> nat -> R) : R := rsum (fun c1 => rsum (F c1) (seq 0 n)) (seq 0 n).
Lemma addAt_ind f d v c : addAt Rplus f d v c = f c + ind c d v.
Proof. unfold addAt, ind. destruct (c =? d)%nat; ring. Qed.
Lemma fold2 {S} (step : nat -> S -> nat -> S) (val : S -> R) n F s :
  (forall s c1 c2, (c1 < n)%nat -> (c2 < n)%nat -> val (step c1 s c2) = val s + F c1 c2) ->
  val (fold_left (fun a c1 => fold_left (step c1) (seq 0 n) a) (seq 0 n) s) = val s + sum2 n F.
Proof.
  intros H. unfold sum2. apply (fold_sum _ val (fun c1 => rsum (F c1) (seq 0 n))). intros s' c1 I1. apply (fold_sum _ val). intros s'' c2 I2. apply in_seq in I1. apply in_seq in I2. apply H; lia.
Qed.
Lemma sum2_ext n F G : (forall c1 c2, (c1 < n)%nat -> (c2 < n)%nat -> F c1 c2 = G c1 c2) -> sum2 n F = sum2 n G.
Proof. intros H. unfold sum2. apply rsum_ext. intros c1 I1. apply rsum_ext. intros c2 I2. apply in_seq in I1. apply in_seq in I2. apply H; lia. Qed.
Lemma sum2_add n F G : sum2 n (fun a b => F a b + G a b) = sum2 n F + sum2 n G.
Proof. unfold sum2. rewrite <- rsum_add. apply rsum_ext. intros c _. apply rsum_add. Qed.
Lemma sum2_swap n F : sum2 n F = sum2 n (fun a b => F b a).
Proof. unfold sum2. apply rsum_swap. Qed.
Lemma sum2_rsum {A} n (l : list A) F : rsum (fun a => sum2 n (F a)) l = sum2 n (fun c1 c2 => rsum (fun a => F a c1 c2) l).
Proof. unfold sum2. rewrite rsum_swap. apply rsum_ext. intros c1 _. rewrite rsum_swap. reflexivity. Qed.
(** a quantity collected per atom, contracted with another per-atom quantity *)
Lemma rsum_ind n c (f : nat -> R) : (c < n)%nat -> rsum (fun d => ind d c (f d)) (seq 0 n) = f c.
Proof.
  intros L. transitivity (rsum (fun d => if (d =? c)%nat then f c else 0) (seq 0 n)); [|apply rsum_at; auto]. apply rsum_ext. intros d _. unfold ind. destruct (Nat.eqb_spec d c); [subst; reflexivity|reflexivity].
Qed.
Lemma collect n (X Y : nat -> nat -> R) (z : nat -> R) :
  rsum (fun c => sum2 n (fun c1 c2 => ind c c1 (X c1 c2) + ind c c2 (Y c1 c2)) * z c) (seq 0 n) = sum2 n (fun c1 c2 => X c1 c2 * z c1 + Y c1 c2 * z c2).
Proof.
  transitivity (rsum (fun c => sum2 n (fun c1 c2 => ind c c1 (X c1 c2 * z c) + ind c c2 (Y c1 c2 * z c))) (seq 0 n)).
  - apply rsum_ext. intros c _. rewrite Rmult_comm. unfold sum2. rewrite <- rsum_scale. apply rsum_ext. intros c1 _. rewrite <- rsum_scale. apply rsum_ext. intros c2 _.
    unfold ind. destruct (c =? c1)%nat, (c =? c2)%nat; ring.
  - rewrite sum2_rsum. apply sum2_ext. intros c1 c2 L1 L2. rewrite rsum_add.
    rewrite (rsum_ind n c1 (fun d => X c1 c2 * z d) L1), (rsum_ind n c2 (fun d => Y c1 c2 * z d) L2). reflexivity.
Qed.

Definition testc (cut q : R) : bool := if Req_EM_T q 0 then false else if Rle_dec q (cut * cut) then true else false.
Lemma testc_loc cut q : 0 < q -> q <> cut * cut -> locally q (fun y => testc cut y = testc cut q).
Proof.
  intros P N. destruct (Rlt_le_dec q (cut * cut)) as [L|L].
  - assert (F := filter_and _ _ (loc_gt q 0 P) (loc_lt q _ L)). revert F. apply filter_imp. intros y [A B]. unfold testc.
    destruct (Req_EM_T y 0), (Req_EM_T q 0), (Rle_dec y (cut*cut)), (Rle_dec q (cut*cut)); try reflexivity; lra.
  - assert (G : cut * cut < q) by lra. assert (F := filter_and _ _ (loc_gt q 0 P) (loc_gt q _ G)). revert F. apply filter_imp. intros y [A B]. unfold testc.
    destruct (Req_EM_T y 0), (Req_EM_T q 0), (Rle_dec y (cut*cut)), (Rle_dec q (cut*cut)); try reflexivity; lra.
Qed.

Section Accum.
  Variables (dampBJ : bool) (s6 s8 sr6 sr8 : R) (aps : nat -> atomParams) (pps : nat -> nat -> pairParams) (n : nat) (sp : nat -> nat).
  Variables (eps : mat R) (d : nat -> vec R).
  Definition rcs c1 c2 := k2Rcov (aps (sp c1)) + k2Rcov (aps (sp c2)).
  Definition qOf (Rl : mat R) (pos : nat -> vec R) c1 c2 iR := metric2 (RTR Rl) (sep pos c1 c2 iR).
  (** coordination number terms *)
  Definition cnf (w k r : R) : R := w / (1 + exp (- k1 * (k / r - 1))).
  Definition cnf' (w k r : R) : R := (- w * (exp (- k1 * (k * (1 / r) - 1)) * k1 * (k * (1 / r) * (1 / r)))) / (1 + exp (- k1 * (k * (1 / r) - 1))) ^ 2.
  Definition cn Rl pos c1 c2 iR : R := let q := qOf Rl pos c1 c2 iR in if testc rCutCN q then cnf (cellWeight iR) (rcs c1 c2) (sqrt q) else 0.
  Definition cn' Rl pos c1 c2 iR : R :=
    let q := qOf Rl pos c1 c2 iR in if testc rCutCN q then cnf' (cellWeight iR) (rcs c1 c2) (sqrt q) / sqrt q * rate Rl (sep pos c1 c2 iR) (rvsub (d c1) (d c2)) eps else 0.
  Lemma cnf_derive w k r : 0 < r -> is_derive (cnf w k) r (cnf' w k r).
  Proof.
    intros P. unfold cnf, cnf'. assert (X := exp_pos (- k1 * (k * (1 / r) - 1))). assert (E : k / r = k * (1 / r)) by (unfold Rdiv; ring).
    unfold k1 in *. auto_derive; [split; [lra|split; [|exact I]]; replace (k * / r + - (1)) with (k * (1 / r) - 1) by (unfold Rdiv; ring); apply Rgt_not_eq, Rlt_gt; lra|].
    replace (k * / r + - (1)) with (k * (1 / r) - 1) by (unfold Rdiv; ring). generalize dependent (exp (- (16) * (k * (1 / r) - 1))). intros w' Pw. field. split; lra.
  Qed.
  Lemma CNlocal_sum Rl pos cells c :
    CNlocal aps n sp Rl pos cells c = sum2 n (fun c1 c2 => ind c c1 (rsum (cn Rl pos c1 c2) cells) + ind c c2 (rsum (cn Rl pos c1 c2) cells)).
  Proof.
    unfold CNlocal. pose (V := fun f : nat -> R => f c). match goal with |- ?x c = _ => change (x c) with (V x) end.
    rewrite (fold2 _ V n (fun c1 c2 => ind c c1 (rsum (cn Rl pos c1 c2) cells) + ind c c2 (rsum (cn Rl pos c1 c2) cells))); [unfold V; lra|]. intros s c1 c2 _ _.
    rewrite (fold_sum _ V (fun g => ind c c1 (cn Rl pos c1 c2 g) + ind c c2 (cn Rl pos c1 c2 g))).
    - f_equal. unfold ind. destruct (c =? c1)%nat, (c =? c2)%nat; rewrite ?rsum_add, ?rsum_zero; try ring.
    - intros s' g _. unfold V, CNcell, cn, testc, qOf. cbv zeta. destruct (Req_EM_T _ 0); [unfold ind; destruct (c =? c1)%nat, (c =? c2)%nat; ring|].
      destruct (Rle_dec _ _); [|unfold ind; destruct (c =? c1)%nat, (c =? c2)%nat; ring]. rewrite !addAt_ind. unfold cnf, rcs. ring.
  Qed.
  Lemma computeCN_sum Rl pos procs c :
    computeCN aps n sp Rl pos procs c = sum2 n (fun c1 c2 => ind c c1 (rsum (cn Rl pos c1 c2) (concat procs)) + ind c c2 (rsum (cn Rl pos c1 c2) (concat procs))).
  Proof.
    unfold computeCN. pose (V := fun f : nat -> R => f c). match goal with |- ?x c = _ => change (x c) with (V x) end.
    rewrite (fold_sum _ V (fun cells => CNlocal aps n sp Rl pos cells c)); [|reflexivity]. unfold V. rewrite Rplus_0_l.
    transitivity (rsum (fun cells => sum2 n (fun c1 c2 => ind c c1 (rsum (cn Rl pos c1 c2) cells) + ind c c2 (rsum (cn Rl pos c1 c2) cells))) procs); [apply rsum_ext; intros; apply CNlocal_sum|].
    rewrite sum2_rsum. apply sum2_ext. intros c1 c2 _ _. rewrite rsum_add, <- rsum_concat. unfold ind. destruct (c =? c1)%nat, (c =? c2)%nat; rewrite ?rsum_zero; ring.
  Qed.
  (** propagation of the gradient with respect to coordination numbers *)
  Notation Ph := (Phi n eps d).
  Lemma direct_step (f : nat -> vec R) (s : mat R) Rl x c1 c2 k : (c1 < n)%nat -> (c2 < n)%nat ->
    Ph (addAt rvadd (addAt rvsub f c1 (rvscale k (rmv (RTR Rl) x))) c2 (rvscale k (rmv (RTR Rl) x))) (rmadd s (rmscale k (Ions_Model.outer (rmv Rl x) (rmv Rl x))))
    = Ph f s + k * rate Rl x (rvsub (d c1) (d c2)) eps.
  Proof.
    intros L1 L2. unfold Phi. rewrite work_add, work_sub, contraction_add, contraction_scale by auto. rewrite !rdot_scale_l. unfold rate.
    set (v := rmv (RTR Rl) x). replace (rdot v (rvsub (d c1) (d c2))) with (rdot v (d c1) - rdot v (d c2)); [ring|]. rewrite !(rdot_comm v). symmetry. apply rdot_subv.
  Qed.
  Lemma propagate_sum Rl pos cells ECN a :
    Ph (fst (propagateCNgradient aps n sp Rl pos cells ECN a)) (snd (propagateCNgradient aps n sp Rl pos cells ECN a))
    = Ph (fst a) (snd a) + sum2 n (fun c1 c2 => rsum (cn' Rl pos c1 c2) cells * ECN c1 + rsum (cn' Rl pos c1 c2) cells * ECN c2).
  Proof.
    unfold propagateCNgradient. pose (V := fun a : (nat -> vec R) * mat R => Ph (fst a) (snd a)).
    match goal with |- Ph (fst ?x) (snd ?x) = _ => change (Ph (fst x) (snd x)) with (V x) end.
    rewrite (fold2 _ V n (fun c1 c2 => rsum (cn' Rl pos c1 c2) cells * ECN c1 + rsum (cn' Rl pos c1 c2) cells * ECN c2)); [reflexivity|]. intros s c1 c2 L1 L2.
    rewrite (fold_sum _ V (fun g => (ECN c1 + ECN c2) * cn' Rl pos c1 c2 g)); [rewrite rsum_scale; ring|]. intros s' g _.
    unfold V, propCell, cn', testc, qOf. cbv zeta. destruct (Req_EM_T _ 0); [ring|]. destruct (Rle_dec _ _); [|ring]. cbn [fst snd].
    rewrite direct_step by auto. unfold cnf', rcs. unfold Rdiv. ring.
  Qed.
  (** pair energies for a given radius R0 *)
  Definition a6 (rCut : R) (R0 : R) Rl pos c1 c2 iR : R :=
    let q := qOf Rl pos c1 c2 iR in if testc rCut q then - (cellWeight iR * s6 * fst (fst (terms dampBJ sr6 sr8 (sqrt q) R0))) else 0.
  Definition a8 (rCut : R) (R0 : R) Rl pos c1 c2 iR : R :=
    let q := qOf Rl pos c1 c2 iR in if testc rCut q then - (cellWeight iR * s8 * fst (snd (terms dampBJ sr6 sr8 (sqrt q) R0))) else 0.
  Definition a6' (rCut : R) (R0 : R) Rl pos c1 c2 iR : R :=
    let q := qOf Rl pos c1 c2 iR in if testc rCut q then - (cellWeight iR * s6 * snd (fst (terms dampBJ sr6 sr8 (sqrt q) R0))) / sqrt q * rate Rl (sep pos c1 c2 iR) (rvsub (d c1) (d c2)) eps else 0.
  Definition a8' (rCut : R) (R0 : R) Rl pos c1 c2 iR : R :=
    let q := qOf Rl pos c1 c2 iR in if testc rCut q then - (cellWeight iR * s8 * snd (snd (terms dampBJ sr6 sr8 (sqrt q) R0))) / sqrt q * rate Rl (sep pos c1 c2 iR) (rvsub (d c1) (d c2)) eps else 0.
  Notation dcell Rl pos rCut c1 c2 C6 C8 R0 := (d3cell dampBJ s6 s8 sr6 sr8 Rl pos rCut c1 c2 C6 C8 R0).
  Lemma cells_E6 Rl pos rCut c1 c2 C6 C8 R0 cells a : E12_C6 (fold_left (dcell Rl pos rCut c1 c2 C6 C8 R0) cells a) = E12_C6 a + rsum (a6 rCut R0 Rl pos c1 c2) cells.
  Proof.
    apply (fold_sum _ E12_C6). intros s g _. unfold d3cell, a6, testc, qOf. cbv zeta. destruct (Req_EM_T _ 0); [ring|]. destruct (Rle_dec _ _); [|ring]. cbn [E12_C6]. ring.
  Qed.
  Lemma cells_E8 Rl pos rCut c1 c2 C6 C8 R0 cells a : E12_C8 (fold_left (dcell Rl pos rCut c1 c2 C6 C8 R0) cells a) = E12_C8 a + rsum (a8 rCut R0 Rl pos c1 c2) cells.
  Proof.
    apply (fold_sum _ E12_C8). intros s g _. unfold d3cell, a8, testc, qOf. cbv zeta. destruct (Req_EM_T _ 0); [ring|]. destruct (Rle_dec _ _); [|ring]. cbn [E12_C8]. ring.
  Qed.
  Lemma cells_Phi Rl pos rCut c1 c2 C6 C8 R0 cells a : (c1 < n)%nat -> (c2 < n)%nat ->
    let q := fold_left (dcell Rl pos rCut c1 c2 C6 C8 R0) cells a in
    Ph (forces3 q) (E_RRT3 q) = Ph (forces3 a) (E_RRT3 a) + (C6 * rsum (a6' rCut R0 Rl pos c1 c2) cells + C8 * rsum (a8' rCut R0 Rl pos c1 c2) cells).
  Proof.
    intros L1 L2. cbv zeta. rewrite <- !rsum_scale, <- rsum_add. pose (V := fun a : d3acc => Ph (forces3 a) (E_RRT3 a)).
    match goal with |- Ph (forces3 ?x) (E_RRT3 ?x) = _ => change (Ph (forces3 x) (E_RRT3 x)) with (V x) end. apply (fold_sum _ V). intros s g _.
    unfold V, d3cell, a6', a8', testc, qOf. cbv zeta. destruct (Req_EM_T _ 0); [ring|]. destruct (Rle_dec _ _); [|ring]. cbn [forces3 E_RRT3].
    rewrite direct_step by auto. unfold Rdiv. ring.
  Qed.
  (** one process *)
  Section Local.
    Variables (Rl : mat R) (pos : nat -> vec R) (rCut : R) (CN : nat -> R).
    Definition C6c c1 c2 := C6of aps pps sp CN c1 c2.
    Definition R0c c1 c2 := R0of dampBJ aps pps sp CN c1 c2.
    Definition dC1 c1 c2 := bilinear (snd (Lof aps sp CN c1)) (pp_C6 (pps (sp c1) (sp c2))) (fst (Lof aps sp CN c2)).
    Definition dC2 c1 c2 := bilinear (fst (Lof aps sp CN c1)) (pp_C6 (pps (sp c1) (sp c2))) (snd (Lof aps sp CN c2)).
    Definition A6 cells c1 c2 := rsum (a6 rCut (R0c c1 c2) Rl pos c1 c2) cells.
    Definition A8 cells c1 c2 := rsum (a8 rCut (R0c c1 c2) Rl pos c1 c2) cells.
    Definition A6' cells c1 c2 := rsum (a6' rCut (R0c c1 c2) Rl pos c1 c2) cells.
    Definition A8' cells c1 c2 := rsum (a8' rCut (R0c c1 c2) Rl pos c1 c2) cells.
    Definition rat c1 c2 := ratio8by6 aps sp c1 c2.
    Definition Atot cells c1 c2 := A6 cells c1 c2 + A8 cells c1 c2 * rat c1 c2.
    Notation dl cells := (d3local dampBJ s6 s8 sr6 sr8 aps pps n sp Rl pos rCut CN cells).
    Lemma local_E6 cells : E6 (dl cells) = sum2 n (fun c1 c2 => A6 cells c1 c2 * C6c c1 c2).
    Proof.
      unfold d3local. rewrite (fold2 _ E6 n (fun c1 c2 => A6 cells c1 c2 * C6c c1 c2)); [cbn [E6]; ring|]. intros s c1 c2 _ _. unfold d3pair. cbv zeta. cbn [E6]. rewrite cells_E6. cbn [E12_C6]. rewrite Rplus_0_l. reflexivity.
    Qed.
    Lemma local_E8 cells : E8 (dl cells) = sum2 n (fun c1 c2 => A8 cells c1 c2 * (C6c c1 c2 * rat c1 c2)).
    Proof.
      unfold d3local. rewrite (fold2 _ E8 n (fun c1 c2 => A8 cells c1 c2 * (C6c c1 c2 * rat c1 c2))); [cbn [E8]; ring|]. intros s c1 c2 _ _. unfold d3pair. cbv zeta. cbn [E8]. rewrite cells_E8. cbn [E12_C8]. rewrite Rplus_0_l. reflexivity.
    Qed.
    Lemma local_ECN cells c : E_CN (dl cells) c = sum2 n (fun c1 c2 => ind c c1 (Atot cells c1 c2 * dC1 c1 c2) + ind c c2 (Atot cells c1 c2 * dC2 c1 c2)).
    Proof.
      unfold d3local. pose (V := fun a : d3tot => E_CN a c). match goal with |- E_CN ?x c = _ => change (E_CN x c) with (V x) end.
      rewrite (fold2 _ V n (fun c1 c2 => ind c c1 (Atot cells c1 c2 * dC1 c1 c2) + ind c c2 (Atot cells c1 c2 * dC2 c1 c2))); [unfold V; cbn [E_CN]; ring|]. intros s c1 c2 _ _.
      unfold V, d3pair. cbv zeta. cbn [E_CN]. rewrite cells_E6, cells_E8, !addAt_ind. cbn [E12_C6 E12_C8]. rewrite !Rplus_0_l, Rplus_assoc. reflexivity.
    Qed.
    Lemma local_Phi cells : Ph (forcesT (dl cells)) (E_RRTT (dl cells)) = sum2 n (fun c1 c2 => C6c c1 c2 * A6' cells c1 c2 + C6c c1 c2 * rat c1 c2 * A8' cells c1 c2).
    Proof.
      unfold d3local. pose (V := fun a : d3tot => Ph (forcesT a) (E_RRTT a)). match goal with |- Ph (forcesT ?x) (E_RRTT ?x) = _ => change (Ph (forcesT x) (E_RRTT x)) with (V x) end.
      rewrite (fold2 _ V n (fun c1 c2 => C6c c1 c2 * A6' cells c1 c2 + C6c c1 c2 * rat c1 c2 * A8' cells c1 c2)).
      - unfold V, Phi. cbn [forcesT E_RRTT]. rewrite contraction_zero, work_zero. ring.
      - intros s c1 c2 L1 L2. unfold V, d3pair. cbv zeta. cbn [forcesT E_RRTT]. rewrite cells_Phi by auto. cbn [forces3 E_RRT3]. reflexivity.
    Qed.
  End Local.
  (** all processes together *)
  Section Total.
    Variables (Rl : mat R) (pos : nat -> vec R) (rCut : R) (procs : list (list V3 * list V3)).
    Definition cells1 : list V3 := concat (map fst procs).
    Definition cells2 : list V3 := concat (map snd procs).
    Definition CNt : nat -> R := computeCN aps n sp Rl pos (map snd procs).
    Notation res := (energyAndGradD3 dampBJ s6 s8 sr6 sr8 aps pps n sp Rl pos rCut procs).
    Lemma rsum_cells1 {A} (F : A -> V3 -> R) (a : A) : rsum (fun p => rsum (F a) (fst p)) procs = rsum (F a) cells1.
    Proof. unfold cells1. rewrite <- rsum_concat, rsum_map. reflexivity. Qed.
    Lemma total_E : fst res = sum2 n (fun c1 c2 => C6c CNt c1 c2 * Atot Rl pos rCut CNt cells1 c1 c2).
    Proof.
      unfold energyAndGradD3. cbv zeta. cbn [fst]. fold CNt.
      rewrite (fold_sum _ (fun s => s) E6) by reflexivity. rewrite (fold_sum _ (fun s => s) E8) by reflexivity. rewrite !rsum_map, !Rplus_0_l.
      transitivity (rsum (fun p : list V3 * list V3 => sum2 n (fun c1 c2 => A6 Rl pos rCut CNt (fst p) c1 c2 * C6c CNt c1 c2)) procs + rsum (fun p : list V3 * list V3 => sum2 n (fun c1 c2 => A8 Rl pos rCut CNt (fst p) c1 c2 * (C6c CNt c1 c2 * rat c1 c2))) procs).
      { f_equal; apply rsum_ext; intros p _; [apply local_E6|apply local_E8]. }
      rewrite !sum2_rsum, <- sum2_add. apply sum2_ext. intros c1 c2 _ _.
      assert (E1 : rsum (fun p : list V3 * list V3 => A6 Rl pos rCut CNt (fst p) c1 c2 * C6c CNt c1 c2) procs = C6c CNt c1 c2 * A6 Rl pos rCut CNt cells1 c1 c2).
      { unfold A6. rewrite <- (rsum_cells1 (fun c => a6 rCut (R0c CNt c1 c) Rl pos c1 c) c2), <- rsum_scale. apply rsum_ext. intros; ring. }
      assert (E2 : rsum (fun p : list V3 * list V3 => A8 Rl pos rCut CNt (fst p) c1 c2 * (C6c CNt c1 c2 * rat c1 c2)) procs = C6c CNt c1 c2 * rat c1 c2 * A8 Rl pos rCut CNt cells1 c1 c2).
      { unfold A8. rewrite <- (rsum_cells1 (fun c => a8 rCut (R0c CNt c1 c) Rl pos c1 c) c2), <- rsum_scale. apply rsum_ext. intros; ring. }
      rewrite E1, E2. unfold Atot. ring.
    Qed.
    Definition dCN (c : nat) : R := sum2 n (fun c1 c2 => ind c c1 (rsum (cn' Rl pos c1 c2) cells2) + ind c c2 (rsum (cn' Rl pos c1 c2) cells2)).
    Lemma total_Phi : Ph (fst (snd res)) (snd (snd res)) =
      sum2 n (fun c1 c2 => C6c CNt c1 c2 * (A6' Rl pos rCut CNt cells1 c1 c2 + A8' Rl pos rCut CNt cells1 c1 c2 * rat c1 c2)
        + Atot Rl pos rCut CNt cells1 c1 c2 * (dC1 CNt c1 c2 * dCN c1 + dC2 CNt c1 c2 * dCN c2)).
    Proof.
      unfold energyAndGradD3. cbv zeta. cbn [fst snd]. fold CNt.
      set (ECN := fold_left (fun (s : nat -> R) l => fun c => s c + E_CN l c) (map (fun p => d3local dampBJ s6 s8 sr6 sr8 aps pps n sp Rl pos rCut CNt (fst p)) procs) (fun _ => 0)).
      set (fs := map (fun p => propagateCNgradient aps n sp Rl pos (snd p) ECN (forcesT (d3local dampBJ s6 s8 sr6 sr8 aps pps n sp Rl pos rCut CNt (fst p)), E_RRTT (d3local dampBJ s6 s8 sr6 sr8 aps pps n sp Rl pos rCut CNt (fst p)))) procs).
      assert (EC : forall c, ECN c = sum2 n (fun c1 c2 => ind c c1 (Atot Rl pos rCut CNt cells1 c1 c2 * dC1 CNt c1 c2) + ind c c2 (Atot Rl pos rCut CNt cells1 c1 c2 * dC2 CNt c1 c2))).
      { intros c. unfold ECN. pose (V := fun f : nat -> R => f c). match goal with |- ?x c = _ => change (x c) with (V x) end.
        rewrite (fold_sum _ V (fun l => E_CN l c)) by reflexivity. unfold V. rewrite Rplus_0_l, rsum_map.
        transitivity (rsum (fun p : list V3 * list V3 => sum2 n (fun c1 c2 => ind c c1 (Atot Rl pos rCut CNt (fst p) c1 c2 * dC1 CNt c1 c2) + ind c c2 (Atot Rl pos rCut CNt (fst p) c1 c2 * dC2 CNt c1 c2))) procs); [apply rsum_ext; intros; apply local_ECN|].
        rewrite sum2_rsum. apply sum2_ext. intros c1 c2 _ _.
        assert (AT : rsum (fun p : list V3 * list V3 => Atot Rl pos rCut CNt (fst p) c1 c2) procs = Atot Rl pos rCut CNt cells1 c1 c2).
        { unfold Atot, A6, A8. rewrite rsum_add, (rsum_cells1 (fun c => a6 rCut (R0c CNt c1 c) Rl pos c1 c) c2).
          rewrite <- (rsum_cells1 (fun c => a8 rCut (R0c CNt c1 c) Rl pos c1 c) c2). f_equal. rewrite Rmult_comm, <- rsum_scale. apply rsum_ext. intros; ring. }
        rewrite rsum_add, <- AT. unfold ind. f_equal; [destruct (c =? c1)%nat|destruct (c =? c2)%nat]; rewrite ?rsum_zero; try reflexivity; rewrite Rmult_comm, <- rsum_scale; apply rsum_ext; intros; ring. }
      assert (P1 : Ph (fold_left (fun (s : nat -> vec R) f => fun c => rvadd (s c) (fst f c)) fs (fun _ => vzero)) (fold_left (fun s f => rmadd s (snd f)) fs mzero)
        = rsum (fun f : (nat -> vec R) * mat R => Ph (fst f) (snd f)) fs).
      { unfold Phi at 1. rewrite (fold_sum _ (fun f => workOf n f d) (fun f : (nat -> vec R) * mat R => workOf n (fst f) d)) by (intros; apply work_plus).
        rewrite (fold_sum _ (fun s => contraction s eps) (fun f : (nat -> vec R) * mat R => contraction (snd f) eps)) by (intros; apply contraction_add).
        rewrite work_zero, contraction_zero. unfold Phi. unfold Rminus. rewrite rsum_add, rsum_opp. ring. }
      rewrite P1. unfold fs. rewrite rsum_map.
      transitivity (rsum (fun p : list V3 * list V3 => sum2 n (fun c1 c2 => C6c CNt c1 c2 * A6' Rl pos rCut CNt (fst p) c1 c2 + C6c CNt c1 c2 * rat c1 c2 * A8' Rl pos rCut CNt (fst p) c1 c2)
         + sum2 n (fun c1 c2 => rsum (cn' Rl pos c1 c2) (snd p) * ECN c1 + rsum (cn' Rl pos c1 c2) (snd p) * ECN c2)) procs).
      { apply rsum_ext. intros p _. rewrite propagate_sum. cbn [fst snd]. rewrite local_Phi. reflexivity. }
      rewrite rsum_add, !sum2_rsum, sum2_add. f_equal.
      - apply sum2_ext. intros c1 c2 _ _. rewrite rsum_add, !rsum_scale. unfold A6', A8'.
        rewrite (rsum_cells1 (fun c => a6' rCut (R0c CNt c1 c) Rl pos c1 c) c2), (rsum_cells1 (fun c => a8' rCut (R0c CNt c1 c) Rl pos c1 c) c2). ring.
      - transitivity (sum2 n (fun c1 c2 => rsum (cn' Rl pos c1 c2) cells2 * ECN c1 + rsum (cn' Rl pos c1 c2) cells2 * ECN c2)).
        { apply sum2_ext. intros c1 c2 _ _. rewrite rsum_add. assert (R2 : rsum (fun p : list V3 * list V3 => rsum (cn' Rl pos c1 c2) (snd p)) procs = rsum (cn' Rl pos c1 c2) cells2) by (unfold cells2; rewrite <- rsum_concat, rsum_map; reflexivity).
          rewrite <- R2. f_equal; rewrite Rmult_comm, <- rsum_scale; apply rsum_ext; intros; ring. }
        rewrite <- (collect n (fun c1 c2 => rsum (cn' Rl pos c1 c2) cells2) (fun c1 c2 => rsum (cn' Rl pos c1 c2) cells2) ECN).
        transitivity (rsum (fun c => ECN c * dCN c) (seq 0 n)); [apply rsum_ext; intros c _; unfold dCN; ring|].
        transitivity (rsum (fun c => sum2 n (fun c1 c2 => ind c c1 (Atot Rl pos rCut CNt cells1 c1 c2 * dC1 CNt c1 c2) + ind c c2 (Atot Rl pos rCut CNt cells1 c1 c2 * dC2 CNt c1 c2)) * dCN c) (seq 0 n)).
        { apply rsum_ext. intros c _. rewrite EC. reflexivity. }
        rewrite collect. apply sum2_ext. intros c1 c2 _ _. ring.
    Qed.
  End Total.
End Accum.
