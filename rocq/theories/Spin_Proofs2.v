(** Gradient propagation of the exchange-correlation functional: proofs. *)
From Coq Require Import ZArith Reals List Bool Lia Lra Psatz.
From Coquelicot Require Import Coquelicot.
From Verif Require Import Base Vec3_Model Vec3_Facts WorkDiv_Model WorkDiv_Proofs WorkDiv_Proofs2 Spin_Model Spin_Spec Spin_Proofs.
Import ListNotations.
Open Scope R_scope.

Ltac req := match goal with |- @eq _ ?a ?b => change (@eq R a b) end.
(** ** sums *)
Lemma sumOver_acc {A} (f : A -> R) l a : fold_left (fun acc x => acc + f x) l a = a + sumOver l f.
Proof.
  unfold sumOver. revert a. induction l as [|x l IH]; intros a; cbn [fold_left]; [lra|].
  rewrite (IH (a + f x)), (IH (0 + f x)). lra.
Qed.
Lemma sumOver_cons {A} (f : A -> R) x l : sumOver (x :: l) f = f x + sumOver l f.
Proof. unfold sumOver at 1. cbn [fold_left]. rewrite sumOver_acc. lra. Qed.
Lemma sumOver_nil {A} (f : A -> R) : sumOver [] f = 0.
Proof. reflexivity. Qed.
Lemma sumOver_app {A} (f : A -> R) l m : sumOver (l ++ m) f = sumOver l f + sumOver m f.
Proof. induction l as [|x l IH]; cbn [app]; rewrite ?sumOver_nil, ?sumOver_cons; [lra|]. rewrite IH. lra. Qed.
Lemma sumOver_concat {A B} (f : A -> R) (g : B -> list A) l : sumOver l (fun b => sumOver (g b) f) = sumOver (concat (map g l)) f.
Proof. induction l as [|x l IH]; cbn [map concat]; [reflexivity|]. rewrite sumOver_cons, sumOver_app, IH. reflexivity. Qed.
Lemma sumOver_ext {A} (f g : A -> R) l : (forall x, In x l -> f x = g x) -> sumOver l f = sumOver l g.
Proof.
  induction l as [|x l IH]; intros H; [reflexivity|]. rewrite !sumOver_cons. rewrite (H x) by (left; auto). rewrite IH; auto.
  intros y Hy. apply H. right; auto.
Qed.

Lemma dirs_all nProcs f : (0 < nProcs)%Z -> sumOver (zrange 0 nProcs) (fun q => sumOver (dirs nProcs q) f) = f 0%Z + f 1%Z + f 2%Z.
Proof.
  intros H. rewrite (sumOver_concat f (dirs nProcs)). unfold dirs. rewrite (td_partition 3 nProcs) by lia.
  change (zrange 0 3) with [0%Z;1%Z;2%Z]. rewrite !sumOver_cons, sumOver_nil. lra.
Qed.
Lemma dirs_one f : sumOver (dirs 1 0) f = f 0%Z + f 1%Z + f 2%Z.
Proof. change (dirs 1 0) with [0%Z;1%Z;2%Z]. rewrite !sumOver_cons, sumOver_nil. lra. Qed.

Lemma gdot2_ext N a a' b b' : (forall p, a p = a' p) -> (forall p, b p = b' p) -> gdot2 N a b = gdot2 N a' b'.
Proof.
  intros Ha Hb. unfold gdot2. generalize (seq 0 N). intros l. induction l as [|x l IH]; cbn [fold_right]; [reflexivity|].
  rewrite IH, Ha, Hb. reflexivity.
Qed.
Lemma gdot2_lin N a a' b k : gdot2 N (fun p => a p + k * a' p) b = gdot2 N a b + k * gdot2 N a' b.
Proof. unfold gdot2. generalize (seq 0 N). intros l. induction l as [|x l IH]; cbn [fold_right]; [lra|]. rewrite IH. lra. Qed.
Lemma gdot2_add N a a' b : gdot2 N (fun p => a p + a' p) b = gdot2 N a b + gdot2 N a' b.
Proof. unfold gdot2. generalize (seq 0 N). intros l. induction l as [|x l IH]; cbn [fold_right]; [lra|]. rewrite IH. lra. Qed.
Lemma gdot2_opp N a b : gdot2 N (fun p => - a p) b = - gdot2 N a b.
Proof. unfold gdot2. generalize (seq 0 N). intros l. induction l as [|x l IH]; cbn [fold_right]; [lra|]. rewrite IH. lra. Qed.
Lemma gdot2_zero N b : gdot2 N (fun _ => 0) b = 0.
Proof. unfold gdot2. generalize (seq 0 N). intros l. induction l as [|x l IH]; cbn [fold_right]; [lra|]. rewrite IH. lra. Qed.

Lemma gdot2_derive N a (g : R -> field) (g' : field) : (forall p, is_derive (fun t : R => g t p) 0 (g' p)) ->
  is_derive (fun t : R => gdot2 N a (g t)) 0 (gdot2 N a g').
Proof.
  intros H. unfold gdot2. generalize (seq 0 N). intros l. induction l as [|x l IH]; cbn [fold_right].
  - apply @is_derive_const.
  - apply (is_derive_plus (V := R_NormedModule)); [|exact IH]. apply is_derive_scal. apply H.
Qed.

Section XC.
  Variables (T Td : Z -> field -> field) (N : nat).
  Hypothesis T_lin : linear_op T.
  Hypothesis T_adj : minus_adjoint N T Td.

  Lemma sigma_all nc n nProcs s1 s2 p : (0 < nProcs)%Z -> sigma T nc n nProcs s1 s2 p = contraction (DnDiag T nc n) s1 s2 p.
  Proof. intros H. unfold sigma, sigmaMine. rewrite dirs_all by auto. reflexivity. Qed.

  (** collinear and unpolarized: no dependence on the process *)
  Lemma coll_value nCount n Es E_n nProcs iProc s p : (0 < nProcs)%Z ->
    propagateSigma T Td false nCount n Es E_n nProcs iProc s p =
    E_n s p + (- Td 0%Z (E_Dni nCount Es (fun s => T 0%Z (n s)) s) p + - Td 1%Z (E_Dni nCount Es (fun s => T 1%Z (n s)) s) p
       + - Td 2%Z (E_Dni nCount Es (fun s => T 2%Z (n s)) s) p).
  Proof.
    intros H. unfold propagateSigma. rewrite dirs_all by auto. unfold propagateDir. cbn [fst snd].
    assert (Z0 : forall l : list Z, sumOver l (fun _ => 0) = 0).
    { induction l as [|x l IH]; [reflexivity|]. rewrite sumOver_cons, IH. lra. }
    rewrite Z0. unfold DnDiag, Dfields. lra.
  Qed.

  Lemma contraction_derive (D : R -> Z -> Z -> field) (D' : Z -> Z -> field) s1 s2 p :
    (forall i s, is_derive (fun t : R => D t i s p) 0 (D' i s p)) ->
    is_derive (fun t : R => contraction (D t) s1 s2 p) 0
      (D' 0%Z s1 p * D 0 0%Z s2 p + D 0 0%Z s1 p * D' 0%Z s2 p + (D' 1%Z s1 p * D 0 1%Z s2 p + D 0 1%Z s1 p * D' 1%Z s2 p)
       + (D' 2%Z s1 p * D 0 2%Z s2 p + D 0 2%Z s1 p * D' 2%Z s2 p)).
  Proof.
    intros H. unfold contraction.
    pose proof (fun i => is_derive_mult (K := R_AbsRing) _ _ _ _ _ (H i s1) (H i s2) Rmult_comm) as P.
    apply (is_derive_plus (V := R_NormedModule)); [apply (is_derive_plus (V := R_NormedModule))|]; apply P.
  Qed.

  Lemma line_derive n dn i s p : is_derive (fun t : R => T i (nline n dn t s) p) 0 (T i (dn s) p).
  Proof.
    apply (is_derive_ext (fun t : R => 1 * (T i (n s) p + t * T i (dn s) p))).
    - intros t. unfold nline. rewrite T_lin. apply Rmult_1_l.
    - evar_last; [apply lin_derive|]. ring.
  Qed.
  Lemma line0 n dn i s p : T i (nline n dn 0 s) p = T i (n s) p.
  Proof. unfold nline. rewrite T_lin. ring. Qed.

  Lemma gdot2_sum3 (a1 b1 a2 b2 a3 b3 c : field) :
    (forall p, c p = a1 p * b1 p + a2 p * b2 p + a3 p * b3 p) ->
    gdot2 N (fun _ => 1) c = gdot2 N a1 b1 + gdot2 N a2 b2 + gdot2 N a3 b3.
  Proof.
    intros H. unfold gdot2. generalize (seq 0 N). intros l. induction l as [|x l IH]; cbn [fold_right]; [lra|].
    rewrite IH, H. lra.
  Qed.
  Lemma gdot2_one a b : gdot2 N a b = gdot2 N (fun _ => 1) (fun p => a p * b p).
  Proof. unfold gdot2. generalize (seq 0 N). intros l. induction l as [|x l IH]; cbn [fold_right]; [lra|]. rewrite IH. lra. Qed.

  Lemma td_dot i a b : gdot2 N (fun p => - Td i a p) b = gdot2 N a (T i b).
  Proof. rewrite gdot2_opp, T_adj. lra. Qed.

  Lemma unpol_gradient n dn Es E_n nProcs iProc : (0 < nProcs)%Z -> (forall s p, E_n s p = 0) ->
    is_derive (fun t : R => weighted1 N Es (DnDiag T false (nline n dn t))) 0
      (spin_dot 1 N (propagateSigma T Td false 1 n Es E_n nProcs iProc) dn).
  Proof.
    intros HP HE. unfold weighted1. evar_last.
    - apply gdot2_derive. intros p. apply (contraction_derive (fun t => DnDiag T false (nline n dn t)) (DnDiag T false dn)).
      intros i s. apply line_derive.
    - unfold spin_dot, sumn. cbn [seq fold_right]. change (Z.of_nat 0) with 0%Z. rewrite Rplus_0_r.
      rewrite (gdot2_ext N (propagateSigma T Td false 1 n Es E_n nProcs iProc 0%Z)
        (fun p => (- Td 0%Z (E_Dni 1 Es (fun s => T 0%Z (n s)) 0%Z) p + - Td 1%Z (E_Dni 1 Es (fun s => T 1%Z (n s)) 0%Z) p)
          + - Td 2%Z (E_Dni 1 Es (fun s => T 2%Z (n s)) 0%Z) p) (dn 0%Z) (dn 0%Z)); [|intros p; rewrite coll_value by auto; rewrite HE; lra|reflexivity].
      rewrite !gdot2_add, !td_dot. rewrite (gdot2_one (Es 0%Z)). apply gdot2_sum3.
      intros p. unfold DnDiag, Dfields, E_Dni. change (1 =? 1)%Z with true. cbv iota. rewrite !line0. ring.
  Qed.

  Lemma weighted2_derive Es (D : R -> Z -> Z -> field) (D' : Z -> Z -> field) :
    (forall i s p, is_derive (fun t : R => D t i s p) 0 (D' i s p)) ->
    is_derive (fun t : R => weighted2 N Es (D t)) 0
      (sumn 3 (fun i => gdot2 N (E_Dni 2 Es (D 0 (Z.of_nat i)) 0%Z) (D' (Z.of_nat i) 0%Z) + gdot2 N (E_Dni 2 Es (D 0 (Z.of_nat i)) 1%Z) (D' (Z.of_nat i) 1%Z))).
  Proof.
    intros H. unfold weighted2. evar_last.
    - apply (is_derive_plus (V := R_NormedModule)); [apply (is_derive_plus (V := R_NormedModule))|];
        apply gdot2_derive; intros p; apply (contraction_derive D D'); intros i s; apply H.
    - unfold plus. cbn [AbelianGroup.plus R_NormedModule].
      unfold sumn. cbn [seq fold_right]. change (Z.of_nat 0) with 0%Z. change (Z.of_nat 1) with 1%Z. change (Z.of_nat 2) with 2%Z.
      unfold gdot2. generalize (seq 0 N). intros l.
      induction l as [|x l IH]; cbn [fold_right]; [unfold plus; cbn; lra|].
      unfold E_Dni in *. change (2 =? 1)%Z with false in *. change (0 =? 0)%Z with true in *. change (1 =? 0)%Z with false in *. cbv iota in *.
      unfold plus in *. cbn [AbelianGroup.plus R_AbelianGroup R_NormedModule] in *. cbn in IH |- *. 
      lra.
  Qed.

  Lemma coll_gradient n dn Es E_n nProcs iProc : (0 < nProcs)%Z -> (forall s p, E_n s p = 0) ->
    is_derive (fun t : R => weighted2 N Es (DnDiag T false (nline n dn t))) 0
      (spin_dot 2 N (propagateSigma T Td false 2 n Es E_n nProcs iProc) dn).
  Proof.
    intros HP HE. evar_last.
    - apply (weighted2_derive Es (fun t => DnDiag T false (nline n dn t)) (DnDiag T false dn)).
      intros i s p. apply line_derive.
    - assert (V : forall s, gdot2 N (propagateSigma T Td false 2 n Es E_n nProcs iProc s) (dn s) =
        gdot2 N (E_Dni 2 Es (fun s => T 0%Z (n s)) s) (T 0%Z (dn s)) + gdot2 N (E_Dni 2 Es (fun s => T 1%Z (n s)) s) (T 1%Z (dn s))
        + gdot2 N (E_Dni 2 Es (fun s => T 2%Z (n s)) s) (T 2%Z (dn s))).
      { intros s. rewrite <- !td_dot, <- !gdot2_add. apply gdot2_ext; [|reflexivity]. intros p. rewrite coll_value by auto. rewrite HE. lra. }
      unfold spin_dot, sumn. cbn [seq fold_right]. change (Z.of_nat 0) with 0%Z. change (Z.of_nat 1) with 1%Z. change (Z.of_nat 2) with 2%Z.
      rewrite !V. unfold DnDiag, Dfields.
      assert (G : forall i s, gdot2 N (E_Dni 2 Es (fun s => T i (nline n dn 0 s)) s) (T i (dn s)) = gdot2 N (E_Dni 2 Es (fun s => T i (n s)) s) (T i (dn s))).
      { intros i s. apply gdot2_ext; [|reflexivity]. intros p. unfold E_Dni. rewrite !line0. reflexivity. }
      rewrite !G. lra.
  Qed.

  (** noncollinear *)
  Lemma quad_line n dn t p : quadAt (nline n dn t) p = qline (quadAt n p) (quadAt dn p) t.
  Proof. reflexivity. Qed.
  Lemma quad_Dline n dn t i p : quadAt (Dfields T (nline n dn t) i) p = qline (quadAt (Dfields T n i) p) (quadAt (Dfields T dn i) p) t.
  Proof. unfold quadAt, qline, Dfields, nline. cbn [q0 q1 q2 q3]. rewrite !T_lin. reflexivity. Qed.

  Definition gradEx (n dn : Z -> field) (i : Z) (p : Z) (E : R * R) : R :=
    qdot (fst (spinDiagonalizeGrad_calc (quadAt n p) (quadAt (Dfields T n i) p) E (Q 0 0 0 0) (Q 0 0 0 0))) (quadAt dn p)
    + qdot (snd (spinDiagonalizeGrad_calc (quadAt n p) (quadAt (Dfields T n i) p) E (Q 0 0 0 0) (Q 0 0 0 0))) (quadAt (Dfields T dn i) p).
  Lemma nc_line_derive n dn i s p :
    is_derive (fun t : R => DnDiag T true (nline n dn t) i s p) 0 (gradEx n dn i p (if (s =? 0)%Z then (1,0) else (0,1))).
  Proof.
    unfold DnDiag, gradEx.
    eapply is_derive_ext; [|apply diag_derive]. intros t. cbv beta zeta.
    rewrite quad_line, quad_Dline. destruct (s =? 0)%Z; cbn [fst snd]; req; ring.
  Qed.
  Lemma gradEx_lin n dn i p a b : gradEx n dn i p (a, b) = a * gradEx n dn i p (1,0) + b * gradEx n dn i p (0,1).
  Proof.
    unfold gradEx, spinDiagonalizeGrad_calc, qdot, accumSpinVectorGrad, E_mVec_of, E_xVec_of. cbn [fst snd q0 q1 q2 q3].
    generalize (mNormFac (snd (loadSpinVector (quadAt n p)))). generalize (snd (loadSpinVector (quadAt n p))).
    generalize (snd (loadSpinVector (quadAt (Dfields T n i) p))). intros X m k. destruct X, m. rewrite half_is. v3_unfold. ring.
  Qed.

  (** increments of direction i *)
  Definition incE n Es i := fst (propagateDir T Td true 2 n Es i).
  Definition incT n Es i := snd (propagateDir T Td true 2 n Es i).
  Lemma nc_value n Es E_n nProcs iProc s p : (0 < nProcs)%Z ->
    propagateSigma T Td true 2 n Es E_n nProcs iProc s p =
    E_n s p + sumOver (dirs nProcs iProc) (fun i => incE n Es i s p) + (incT n Es 0%Z s p + incT n Es 1%Z s p + incT n Es 2%Z s p).
  Proof. intros H. unfold propagateSigma. rewrite dirs_all by auto. reflexivity. Qed.
  Lemma nc_value_one n Es E_n s p :
    propagateSigma T Td true 2 n Es E_n 1 0 s p =
    E_n s p + (incE n Es 0%Z s p + incE n Es 1%Z s p + incE n Es 2%Z s p) + (incT n Es 0%Z s p + incT n Es 1%Z s p + incT n Es 2%Z s p).
  Proof. rewrite nc_value by lia. rewrite dirs_one. reflexivity. Qed.

  Lemma inc_dot n dn Es i :
    spin_dot 4 N (incE n Es i) dn + spin_dot 4 N (incT n Es i) dn =
    gdot2 N (E_Dni 2 Es (DnDiag T true n i) 0%Z) (fun p => gradEx n dn i p (1,0)) + gdot2 N (E_Dni 2 Es (DnDiag T true n i) 1%Z) (fun p => gradEx n dn i p (0,1)).
  Proof.
    unfold incE, incT, propagateDir. cbn [fst snd]. set (E := E_Dni 2 Es (DnDiag T true n i)).
    unfold spin_dot, sumn. cbn [seq fold_right].
    change (Z.of_nat 0) with 0%Z. change (Z.of_nat 1) with 1%Z. change (Z.of_nat 2) with 2%Z. change (Z.of_nat 3) with 3%Z.
    rewrite !td_dot. unfold convertDni, quadComp. cbn [fst snd].
    change (0 =? 0)%Z with true. change (1 =? 0)%Z with false. change (2 =? 0)%Z with false. change (3 =? 0)%Z with false.
    change (1 =? 1)%Z with true. change (2 =? 1)%Z with false. change (3 =? 1)%Z with false. change (2 =? 2)%Z with true. change (3 =? 2)%Z with false. cbv iota.
    unfold gdot2. generalize (seq 0 N). intros l. induction l as [|x l IH]; cbn [fold_right]; [lra|].
    assert (G := gradEx_lin n dn i (Z.of_nat x) (E 0%Z (Z.of_nat x)) (E 1%Z (Z.of_nat x))).
    match type of IH with ?a = ?b => match type of G with ?u = ?v =>
      match goal with |- ?c = ?d => replace c with (u + a); [replace d with (v + b); [rewrite G, IH; reflexivity|ring]|] end end end.
    unfold gradEx, qdot, quadAt, Dfields. cbn [q0 q1 q2 q3]. ring.
  Qed.

  Lemma spin_dot_add K a b dn : spin_dot K N (fun s p => a s p + b s p) dn = spin_dot K N a dn + spin_dot K N b dn.
  Proof.
    unfold spin_dot, sumn. generalize (seq 0 K). intros l. induction l as [|x l IH]; cbn [fold_right]; [lra|]. rewrite IH.
    rewrite (gdot2_add N (a (Z.of_nat x)) (b (Z.of_nat x))). lra.
  Qed.
  Lemma spin_dot_ext K a b dn : (forall s p, a s p = b s p) -> spin_dot K N a dn = spin_dot K N b dn.
  Proof.
    intros H. unfold spin_dot, sumn. generalize (seq 0 K). intros l. induction l as [|x l IH]; cbn [fold_right]; [lra|]. rewrite IH.
    rewrite (gdot2_ext N _ _ _ (dn (Z.of_nat x)) (H (Z.of_nat x))) by reflexivity. reflexivity.
  Qed.

  Lemma DnDiag_line0 n dn i s p : DnDiag T true (nline n dn 0) i s p = DnDiag T true n i s p.
  Proof.
    unfold DnDiag. rewrite quad_line, quad_Dline.
    assert (QL : forall a b, qline a b 0 = a) by (intros [a b c d] [e f g h]; unfold qline; cbn [q0 q1 q2 q3]; f_equal; ring).
    rewrite !QL. reflexivity.
  Qed.

  Lemma nc_gradient n dn Es E_n : (forall s p, E_n s p = 0) ->
    is_derive (fun t : R => weighted2 N Es (DnDiag T true (nline n dn t))) 0
      (spin_dot 4 N (propagateSigma T Td true 2 n Es E_n 1 0) dn).
  Proof.
    intros HE. evar_last.
    - apply (weighted2_derive Es (fun t => DnDiag T true (nline n dn t)) (fun i s p => gradEx n dn i p (if (s =? 0)%Z then (1,0) else (0,1)))).
      intros i s p. apply nc_line_derive.
    - rewrite (spin_dot_ext 4 _ (fun s p => (incE n Es 0%Z s p + incT n Es 0%Z s p) + ((incE n Es 1%Z s p + incT n Es 1%Z s p) + (incE n Es 2%Z s p + incT n Es 2%Z s p))))
        by (intros s p; rewrite nc_value_one, HE; lra).
      rewrite spin_dot_add, (spin_dot_add 4 (fun s p => incE n Es 1%Z s p + incT n Es 1%Z s p)), !(spin_dot_add 4 (incE n Es _)), !inc_dot.
      unfold sumn. cbn [seq fold_right]. change (Z.of_nat 0) with 0%Z. change (Z.of_nat 1) with 1%Z. change (Z.of_nat 2) with 2%Z.
      change (0 =? 0)%Z with true. change (1 =? 0)%Z with false. cbv iota.
      assert (G : forall i s g, gdot2 N (E_Dni 2 Es (DnDiag T true (nline n dn 0) i) s) g = gdot2 N (E_Dni 2 Es (DnDiag T true n i) s) g).
      { intros i s g. apply gdot2_ext; [|reflexivity]. intros p. unfold E_Dni. rewrite !DnDiag_line0. reflexivity. }
      rewrite !G. lra.
  Qed.

  (** the missing part on process iProc *)
  Lemma nc_deficit n Es E_n nProcs iProc s p : (0 < nProcs)%Z ->
    propagateSigma T Td true 2 n Es E_n 1 0 s p - propagateSigma T Td true 2 n Es E_n nProcs iProc s p =
    incE n Es 0%Z s p + incE n Es 1%Z s p + incE n Es 2%Z s p - sumOver (dirs nProcs iProc) (fun i => incE n Es i s p).
  Proof. intros H. rewrite nc_value_one, nc_value by auto. lra. Qed.
End XC.

(** ** Two processes, noncollinear: different potentials *)
Definition wT (i : Z) (a : field) : field := fun p =>
  if (i =? 0)%Z then (if (p =? 0)%Z then a 1%Z else if (p =? 1)%Z then - a 0%Z else 0) else 0.
Definition wn (s : Z) : field := fun p =>
  if (p =? 0)%Z then (if (s =? 0)%Z then 1 else 0) else (if (s =? 3)%Z then 0 else / 2).
Definition wEs (k : Z) : field := fun _ => if (k =? 0)%Z then 1 else 0.
Lemma wT_lin : linear_op wT.
Proof. intros i a b t p. unfold wT. destruct (i =? 0)%Z; [|lra]. destruct (p =? 0)%Z; [lra|]. destruct (p =? 1)%Z; lra. Qed.
Lemma wT_adj : minus_adjoint 2 wT wT.
Proof.
  intros i a b. unfold gdot2. cbn [seq fold_right]. change (Z.of_nat 0) with 0%Z. change (Z.of_nat 1) with 1%Z. unfold wT.
  change (0 =? 0)%Z with true. change (1 =? 0)%Z with false. change (1 =? 1)%Z with true. cbv iota. destruct (i =? 0)%Z; lra.
Qed.
Lemma wn_psd p : psd (quadAt wn p).
Proof. unfold quadAt, wn, psd. cbn [q0 q1 q2 q3]. destruct (p =? 0)%Z; cbn; lra. Qed.
Lemma w_inc0 : incE wT wT wn wEs 0%Z 2%Z 0%Z <> 0.
Proof.
  unfold incE, propagateDir, convertDni, quadComp. cbn [fst snd].
  unfold spinDiagonalizeGrad_calc. cbn [fst]. unfold accumSpinVectorGrad. cbn [q2].
  change (2 =? 0)%Z with false. change (2 =? 1)%Z with false. change (2 =? 2)%Z with true. cbv iota.
  unfold E_mVec_of, E_Dni, DnDiag, spinDiagonalize_calc. change (2 =? 1)%Z with false. change (0 =? 0)%Z with true. change (1 =? 0)%Z with false. cbv iota. cbn [fst snd].
  set (k := mNormFac (snd (loadSpinVector (quadAt wn 0%Z)))).
  assert (K : 0 < k). { unfold k, mNormFac. apply Rdiv_lt_0_compat; [lra|]. apply sden_pos. }
  clearbody k.
  unfold loadSpinVector, quadAt, Dfields, wn, wT, wEs. cbn [q0 q1 q2 q3 fst snd].
  repeat match goal with |- context[(?a =? ?b)%Z] => let v := eval vm_compute in (a =? b)%Z in change (a =? b)%Z with v end. cbv iota.
  v3_unfold. match goal with |- ?e <> 0 => replace e with k by lra end. lra.
Qed.
Lemma w_inc12 i s p : (i =? 0)%Z = false -> incE wT wT wn wEs i s p = 0.
Proof.
  intros Hi. unfold incE, propagateDir, convertDni, quadComp. cbn [fst snd].
  assert (L : loadSpinVector (quadAt (Dfields wT wn i) p) = (0, V 0 0 0)).
  { unfold loadSpinVector, quadAt, Dfields, wT. rewrite Hi. cbn [q0 q1 q2 q3]. f_equal; [ring|f_equal; ring]. }
  unfold spinDiagonalizeGrad_calc. cbn [fst]. unfold accumSpinVectorGrad, E_mVec_of. rewrite L. cbn [snd].
  generalize (mNormFac (snd (loadSpinVector (quadAt wn p)))). generalize (snd (loadSpinVector (quadAt wn p))). intros [a b c] k.
  v3_unfold. cbn [q0 q1 q2 q3]. destruct (s =? 0)%Z; [ring|]. destruct (s =? 1)%Z; [ring|]. destruct (s =? 2)%Z; ring.
Qed.
Lemma nc_differs : propagateSigma wT wT true 2 wn wEs (fun _ _ => 0) 2 0 2 0%Z <> propagateSigma wT wT true 2 wn wEs (fun _ _ => 0) 2 1 2 0%Z.
Proof.
  rewrite !(nc_value wT wT) by lia. change (dirs 2 0) with [0%Z]. change (dirs 2 1) with [1%Z;2%Z].
  rewrite !sumOver_cons, !sumOver_nil. rewrite !(w_inc12 1), !(w_inc12 2) by reflexivity. pose proof w_inc0. intros E. apply H. lra.
Qed.
