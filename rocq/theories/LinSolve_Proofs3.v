(** Conjugate gradients: orthogonal residuals and finite termination. *)
From Coq Require Import Reals ZArith List Bool Arith Lia Lra.
From Verif Require Import XR_Model XR_Facts VecOps LinSolve_Model LinSolve_Spec LinSolve_Proofs LinSolve_Proofs2.
Import ListNotations.
Open Scope R_scope.

Section S.
Context {V : Type} (v : VectorOps V) (A K : V -> V) (kill : nat -> bool).
Hypothesis laws : vector_laws v.
Hypothesis linA : linear v A.
Hypothesis symA : symmetric v A.
Hypothesis symK : symmetric v K.
Notation "x ** y" := (v_dot v x y) (at level 40).

Lemma dotC x y : x ** y = y ** x. Proof. apply (vl_dot_comm v laws). Qed.
Lemma dot_axpy_r a x y w : w ** axpy v a x y = w ** y + a * (w ** x).
Proof. unfold axpy. rewrite (vl_dot_add v laws), (vl_dot_scal v laws). reflexivity. Qed.
Lemma dot_axpy_l a x y w : axpy v a x y ** w = y ** w + a * (x ** w).
Proof. rewrite dotC, dot_axpy_r, (dotC w), (dotC w). reflexivity. Qed.
Lemma dot_scal_r a x w : w ** v_scal v a x = a * (w ** x). Proof. apply (vl_dot_scal v laws). Qed.
Lemma dot_scal_l a x w : v_scal v a x ** w = a * (x ** w). Proof. rewrite dotC, dot_scal_r, dotC. reflexivity. Qed.

Definition newdir (z d : V) (rz rzP : R) : V := if Reqb rzP 0 then z else axpy v 1 z (v_scal v (rz / rzP) d).
(** facts about the previous residuals rs, the previous directions ds, the current residual r and the last direction d *)
Definition Inv (rs ds : list V) (r d : V) (rzP : R) : Prop :=
  (forall u, In u ds -> r ** u = 0) /\ (forall s, In s rs -> r ** K s = 0) /\ (forall w, (forall u, In u ds -> w ** u = 0) -> forall s, In s rs -> w ** K s = 0) /\
  ((rzP = 0 /\ ds = []) \/
   (rzP <> 0 /\ In d ds /\ exists rP wdP, In rP rs /\ wdP <> 0 /\ A d ** d = wdP /\ (forall w, A d ** w = wdP / rzP * (rP ** w - r ** w)) /\
    forall u, In u ds -> u = d \/ (A u ** d = 0 /\ exists a s s', In s rs /\ In s' rs /\ forall w, A u ** w = a * (s ** w - s' ** w)))).
Lemma inv_dir rs ds r d rzP : Inv rs ds r d rzP -> r ** K r <> 0 -> let d1 := newdir (K r) d (r ** K r) rzP in
  r ** d1 = r ** K r /\ (forall u, In u ds -> A u ** d1 = 0) /\ (forall w, (forall u, In u ds -> w ** u = 0) -> w ** K r = w ** d1).
Proof.
  intros (C1 & C2 & C5 & Q) NZ d1. unfold d1, newdir. destruct Q as [(-> & ->)|(N & Id & rP & wdP & IP & NW & EW & EA & C3)].
  { replace (Reqb 0 0) with true by (unfold Reqb; destruct (Req_EM_T 0 0); congruence). split; [auto|]. split; [intros u []|auto]. }
  destruct (Reqb rzP 0) eqn:E. { unfold Reqb in E. destruct (Req_EM_T rzP 0); congruence. }
  split; [rewrite dot_axpy_r, dot_scal_r, (C1 d Id); ring|]. split.
  { intros u Iu. rewrite dot_axpy_r, dot_scal_r. destruct (C3 u Iu) as [->|(Z & a & s & s' & Is & Is' & Ea)].
    { rewrite (EA (K r)), EW. rewrite <- (symK rP r), (dotC (K rP)), (C2 rP IP). field. auto. }
    { rewrite Z, (Ea (K r)). rewrite <- (symK s r), <- (symK s' r), (dotC (K s)), (dotC (K s')), (C2 s Is), (C2 s' Is'). ring. } }
  { intros w W. rewrite dot_axpy_r, dot_scal_r, (W d Id). ring. }
Qed.
Lemma inv_step rs ds r d rzP : Inv rs ds r d rzP -> r ** K r <> 0 -> let d1 := newdir (K r) d (r ** K r) rzP in let wd := A d1 ** d1 in wd <> 0 ->
  Inv (r :: rs) (d1 :: ds) (axpy v (- (r ** K r / wd)) (A d1) r) d1 (r ** K r).
Proof.
  intros I NZ d1 wd NW. destruct (inv_dir rs ds r d rzP I NZ) as (D1 & D2 & D3). fold d1 in D1, D2, D3. destruct I as (C1 & C2 & C5 & Q).
  set (r1 := axpy v (- (r ** K r / wd)) (A d1) r).
  assert (R0 : forall u, In u ds -> r1 ** u = 0). { intros u Iu. unfold r1. rewrite dot_axpy_l, (C1 u Iu), (symA d1 u), (dotC d1), (D2 u Iu). ring. }
  assert (R1 : r1 ** d1 = 0). { unfold r1. rewrite dot_axpy_l, D1. fold wd. field. auto. }
  assert (C5' : forall w, (forall u, In u (d1 :: ds) -> w ** u = 0) -> forall s, In s (r :: rs) -> w ** K s = 0).
  { intros w W s [<-|Is]. { rewrite D3; [apply W; left; auto|]. intros u Iu. apply W. right. auto. } { apply C5; auto. intros u Iu. apply W. right. auto. } }
  split; [|split; [|split; [exact C5'|]]].
  { intros u [<-|Iu]; auto. }
  { apply C5'. intros u [<-|Iu]; auto. }
  right. split; [auto|]. split; [left; auto|]. exists r, wd. split; [left; auto|]. split; [auto|]. split; [reflexivity|]. split.
  { intros w. unfold r1. rewrite dot_axpy_l. field. auto. }
  { intros u [<-|Iu]; [left; auto|]. right. split; [auto|]. destruct Q as [(-> & ->)|(N & Id & rP & wdP & IP & NWP & EW & EA & C3)]; [destruct Iu|].
    destruct (C3 u Iu) as [->|(Z & a & s & s' & Is & Is' & Ea)].
    { exists (wdP / rzP), rP, r. split; [right; auto|]. split; [left; auto|]. exact EA. }
    { exists a, s, s'. split; [right; auto|]. split; [right; auto|]. exact Ea. } }
Qed.

(** the trace *)
Definition orth (tr : list (Iterate V)) : Prop := ForallOrdPairs (fun i j => it_r j ** K (it_r i) = 0) tr.
Lemma orth_snoc tr it : orth tr -> (forall i, In i tr -> it_r it ** K (it_r i) = 0) -> orth (tr ++ [it]).
Proof.
  unfold orth. induction 1 as [|a l F H IH]; intros G; cbn [app]. { repeat constructor. }
  constructor; [|apply IH; intros; apply G; right; auto]. apply Forall_app. split; [auto|]. constructor; [|constructor]. apply G. left. auto.
Qed.
Lemma orth_split tr : orth tr -> forall l1 i l2 j l3, tr = l1 ++ i :: l2 ++ j :: l3 -> it_r i ** K (it_r j) = 0.
Proof.
  unfold orth. induction 1 as [|a l F H IH]; intros l1 i l2 j l3 E; [destruct l1; discriminate|]. destruct l1 as [|b l1]; cbn [app] in E; injection E as -> E.
  { rewrite Forall_forall in F. rewrite <- (symK (it_r i)), dotC. apply F. rewrite E. apply in_or_app. right. left. auto. }
  { eapply IH; eauto. }
Qed.
Definition Tr (rs : list V) (r : V) (tr : list (Iterate V)) : Prop :=
  exists tr0 it, tr = tr0 ++ [it] /\ it_r it = r /\ it_rz it = r ** K r /\ (forall i, In i tr0 -> In (it_r i) rs /\ it_r i ** K (it_r i) <> 0) /\ orth tr.
Lemma Tr_step rs r tr x r1 : Tr rs r tr -> r ** K r <> 0 -> (forall s, In s (r :: rs) -> r1 ** K s = 0) -> Tr (r :: rs) r1 (tr ++ [mkIt x r1 (r1 ** K r1)]).
Proof.
  intros (tr0 & it & -> & E & Ez & H & O) NZ G. exists (tr0 ++ [it]), (mkIt x r1 (r1 ** K r1)). split; [reflexivity|]. split; [reflexivity|]. split; [reflexivity|]. split.
  { intros i I. apply in_app_or in I. destruct I as [I|[<-|[]]]; [split; [right; apply H; auto|apply H; auto]|rewrite E; split; [left; auto|auto]]. }
  { apply orth_snoc; [auto|]. intros i I. cbn [it_r]. apply G. apply in_app_or in I. destruct I as [I|[<-|[]]]; [right; apply H; auto|left; auto]. }
Qed.
Lemma thr_nz nDim thr rz : 0 < thr -> Rltb (rzNorm nDim rz) thr = false -> rz <> 0.
Proof. intros T E ->. unfold rzNorm, Rdiv in E. rewrite Rabs_R0, Rmult_0_l, sqrt_0 in E. unfold Rltb in E. destruct (Rlt_dec 0 thr); [discriminate|lra]. Qed.
Lemma loop_orth nDim thr k : 0 < thr -> forall iter x r d rzP tr rs ds, Inv rs ds r d rzP -> Tr rs r tr -> r ** K r <> 0 ->
  orth (so_trace (solveLoop v A K kill k iter nDim thr x r (K r) d (r ** K r) rzP tr)).
Proof.
  intros T. induction k as [|k IH]; intros iter x r d rzP tr rs ds I TR NZ; cbn [solveLoop].
  { cbn [so_trace]. destruct TR as (? & ? & _ & _ & _ & _ & O). exact O. }
  destruct (kill iter). { destruct TR as (? & ? & _ & _ & _ & _ & O). exact O. }
  fold (newdir (K r) d (r ** K r) rzP). destruct (Reqb _ 0) eqn:W in |- *. { destruct TR as (? & ? & _ & _ & _ & _ & O). exact O. }
  assert (NW : A (newdir (K r) d (r ** K r) rzP) ** newdir (K r) d (r ** K r) rzP <> 0) by (unfold Reqb in W; destruct (Req_EM_T _ 0) in W; [discriminate|auto]).
  assert (I1 := inv_step rs ds r d rzP I NZ). cbv zeta in I1. specialize (I1 NW). set (d1 := newdir _ _ _ _) in *. set (r1 := axpy v (- _) (A d1) r) in *. set (x1 := axpy v _ d1 x).
  assert (TR1 := Tr_step rs r tr x1 r1 TR NZ (proj1 (proj2 I1))). destruct (Rltb (rzNorm nDim (r1 ** K r1)) thr) eqn:C.
  { cbn [so_trace]. destruct TR1 as (? & ? & _ & _ & _ & _ & O). exact O. }
  { apply (IH (S iter) x1 r1 d1 (r ** K r) _ (r :: rs) (d1 :: ds) I1 TR1). apply (thr_nz nDim thr); auto. }
Qed.
Lemma start_ok r d x rz : Inv [] [] r d 0 /\ (rz = r ** K r -> Tr [] r [mkIt x r rz]).
Proof.
  split. { split; [intros u []|]. split; [intros u []|]. split; [intros w _ s []|]. left. auto. }
  intros E. exists [], (mkIt x r rz). split; [reflexivity|]. split; [reflexivity|]. split; [exact E|]. split; [intros i []|]. repeat constructor.
Qed.
Theorem solve_orth nIter nDim thr rhs x : 0 < thr -> forall l1 i l2 j l3, so_trace (solve v A K kill nIter nDim thr rhs x) = l1 ++ i :: l2 ++ j :: l3 -> it_r i ** K (it_r j) = 0.
Proof.
  intros T. apply orth_split. unfold solve. set (r := axpy v (-1) (A x) rhs). destruct (Rltb (rzNorm nDim (r ** K r)) thr) eqn:C; [cbn; repeat constructor|].
  destruct (start_ok r r x (r ** K r)) as [I TR]. apply (loop_orth nDim thr _ T 0 x r r 0 _ [] [] I (TR eq_refl)). apply (thr_nz nDim thr); auto.
Qed.

(** finite termination *)
Lemma vsum_dot w f n : w ** vsum v f n = fold_right (fun i s => s + w ** f i) 0 (rev (seq 0 n)).
Proof.
  induction n as [|n IH]; cbn [vsum]. { cbn. rewrite <- (sz v laws (v_zero v)), (vl_dot_scal v laws). ring. }
  rewrite (vl_dot_add v laws), IH. rewrite seq_S, rev_app_distr. cbn [rev app fold_right plus]. ring.
Qed.
Lemma sum_one (g : nat -> R) l j : NoDup l -> In j l -> (forall i, In i l -> i <> j -> g i = 0) -> fold_right (fun i s => s + g i) 0 l = g j.
Proof.
  induction l as [|a l IH]; intros N J H; [destruct J|]. inversion N as [|x y X Y]; subst. cbn [fold_right]. destruct (Nat.eq_dec a j) as [->|D].
  { assert (Z : fold_right (fun i s => s + g i) 0 l = 0); [|lra]. assert (G : forall i, In i l -> g i = 0) by (intros i I; apply H; [right; auto|intros ->; auto]). clear - G. induction l as [|a l IH]; [reflexivity|]. cbn [fold_right]. rewrite IH by (intros; apply G; right; auto). rewrite G by (left; auto). ring. }
  { rewrite (H a) by (auto; left; auto). rewrite IH; auto. { ring. } destruct J; [congruence|auto]. intros i I. apply H. right. auto. }
Qed.
Lemma independent n (tr : list (Iterate V)) : dimension_le v n -> orth tr -> (forall i, In i tr -> it_r i ** K (it_r i) <> 0) -> (length tr <= n)%nat.
Proof.
  intros D O NZ. destruct (le_lt_dec (length tr) n) as [|L]; [auto|]. exfalso. set (it0 := mkIt (v_zero v) (v_zero v) 0). set (f := fun i => it_r (nth i tr it0)).
  destruct (D f) as (c & (j & Hj & Nc) & E). apply Nc.
  assert (P : forall i, (i <= n)%nat -> i <> j -> f i ** K (f j) = 0).
  { intros i Hi Dij. assert (S2 := orth_split tr O). assert (G : forall a b, (a < b)%nat -> (b <= n)%nat -> f a ** K (f b) = 0).
    { intros a b Lab Lb. destruct (nth_split tr it0 (n:=a) ltac:(lia)) as (l1 & l2 & E1 & E2). assert (Lb2 : (b - a - 1 < length l2)%nat). { rewrite E1, app_length in L. cbn [length] in L. lia. }
      destruct (nth_split l2 it0 (n:=(b - a - 1)%nat) Lb2) as (l3 & l4 & E3 & E4). unfold f. apply (S2 l1 (nth a tr it0) l3 (nth b tr it0) l4). rewrite E1 at 1. f_equal. f_equal. rewrite E3 at 1. f_equal. f_equal.
      rewrite E1. rewrite app_nth2 by lia. rewrite E2. replace (b - a)%nat with (S (b - a - 1)) by lia. cbn [nth]. rewrite E3 at 1. rewrite app_nth2 by lia. rewrite E4 at 1. replace (S (b - a - 1) - 1 - (b - a - 1))%nat with 0%nat by lia. reflexivity. }
    destruct (Nat.lt_trichotomy i j) as [Lt|[->|Gt]]; [apply G; lia|congruence|]. rewrite <- symK, dotC. apply G; lia. }
  assert (Q : K (f j) ** vsum v (fun i => v_scal v (c i) (f i)) (S n) = c j * (K (f j) ** f j)).
  { rewrite vsum_dot. rewrite (sum_one _ _ j). { rewrite dot_scal_r. reflexivity. } { apply NoDup_rev, seq_NoDup. } { apply -> in_rev. apply in_seq. lia. }
    intros i Ii Dij. apply in_rev, in_seq in Ii. rewrite dot_scal_r, dotC, P by (auto; lia). ring. }
  rewrite E in Q. rewrite <- (sz v laws (v_zero v)), dot_scal_r, Rmult_0_l in Q. assert (Nj : K (f j) ** f j <> 0). { rewrite dotC. apply NZ. apply nth_In. lia. }
  symmetry in Q. apply Rmult_integral in Q. tauto.
Qed.
(** number of iterations *)
Lemma orth_app l1 l2 : orth (l1 ++ l2) -> orth l1.
Proof.
  unfold orth. induction l1 as [|a l1 IH]; cbn [app]; intros H; [constructor|]. inversion H as [|x y F H2]; subst. constructor; [|auto]. apply Forall_app in F. apply F.
Qed.
Lemma loop_tr nDim thr k : 0 < thr -> forall iter x r d rzP tr rs ds, Inv rs ds r d rzP -> Tr rs r tr -> r ** K r <> 0 ->
  exists rs' r', Tr rs' r' (so_trace (solveLoop v A K kill k iter nDim thr x r (K r) d (r ** K r) rzP tr)).
Proof.
  intros T. induction k as [|k IH]; intros iter x r d rzP tr rs ds I TR NZ; cbn [solveLoop].
  { exists rs, r. exact TR. }
  destruct (kill iter). { exists rs, r. exact TR. }
  fold (newdir (K r) d (r ** K r) rzP). destruct (Reqb _ 0) eqn:W in |- *. { exists rs, r. exact TR. }
  assert (NW : A (newdir (K r) d (r ** K r) rzP) ** newdir (K r) d (r ** K r) rzP <> 0) by (unfold Reqb in W; destruct (Req_EM_T _ 0) in W; [discriminate|auto]).
  assert (I1 := inv_step rs ds r d rzP I NZ). cbv zeta in I1. specialize (I1 NW). set (d1 := newdir _ _ _ _) in *. set (r1 := axpy v (- _) (A d1) r) in *. set (x1 := axpy v _ d1 x).
  assert (TR1 := Tr_step rs r tr x1 r1 TR NZ (proj1 (proj2 I1))). destruct (Rltb (rzNorm nDim (r1 ** K r1)) thr) eqn:C.
  { exists (r :: rs), r1. exact TR1. }
  { apply (IH (S iter) x1 r1 d1 (r ** K r) _ (r :: rs) (d1 :: ds) I1 TR1). apply (thr_nz nDim thr); auto. }
Qed.
Theorem solve_len nIter nDim thr rhs x n : 0 < thr -> dimension_le v n -> (length (so_trace (solve v A K kill nIter nDim thr rhs x)) <= S n)%nat.
Proof.
  intros T D. unfold solve. set (r := axpy v (-1) (A x) rhs). destruct (Rltb (rzNorm nDim (r ** K r)) thr) eqn:C; [cbn; lia|].
  destruct (start_ok r r x (r ** K r)) as [I TR]. destruct (loop_tr nDim thr (Z.to_nat nIter) T 0 x r r 0 _ [] [] I (TR eq_refl)) as (rs & r' & tr0 & it & -> & _ & _ & H & O); [apply (thr_nz nDim thr); auto|].
  rewrite app_length. cbn [length]. assert (length tr0 <= n)%nat; [|lia]. apply (independent n tr0 D); [apply (orth_app _ _ O)|]. intros i Hi. apply H. auto.
Qed.
Hypothesis defA : definite v A.
Lemma loop_conv nDim thr n k : 0 < thr -> dimension_le v n -> (forall i, kill i = false) -> forall iter x r d rzP tr rs ds, Inv rs ds r d rzP -> Tr rs r tr -> r ** K r <> 0 -> (n < k + length tr)%nat ->
  so_conv (solveLoop v A K kill k iter nDim thr x r (K r) d (r ** K r) rzP tr) = true.
Proof.
  intros T D NK. induction k as [|k IH]; intros iter x r d rzP tr rs ds I TR NZ L; cbn [solveLoop].
  { exfalso. destruct TR as (tr0 & it & -> & E & Ez & H & O). assert (G := independent n _ D O). assert (length (tr0 ++ [it]) <= n)%nat; [|lia]. apply G. intros i J. apply in_app_or in J. destruct J as [J|[<-|[]]]; [apply H; auto|rewrite E; auto]. }
  rewrite NK. fold (newdir (K r) d (r ** K r) rzP).
  assert (NW : A (newdir (K r) d (r ** K r) rzP) ** newdir (K r) d (r ** K r) rzP <> 0). { rewrite dotC. apply Rgt_not_eq, defA. exists r. rewrite dotC. rewrite (proj1 (inv_dir rs ds r d rzP I NZ)). auto. }
  destruct (Reqb _ 0) eqn:W in |- *. { unfold Reqb in W. destruct (Req_EM_T _ 0) in W; [contradiction|discriminate]. }
  assert (I1 := inv_step rs ds r d rzP I NZ). cbv zeta in I1. specialize (I1 NW). set (d1 := newdir _ _ _ _) in *. set (r1 := axpy v (- _) (A d1) r) in *. set (x1 := axpy v _ d1 x).
  assert (TR1 := Tr_step rs r tr x1 r1 TR NZ (proj1 (proj2 I1))). destruct (Rltb (rzNorm nDim (r1 ** K r1)) thr) eqn:C; [reflexivity|].
  apply (IH (S iter) x1 r1 d1 (r ** K r) _ (r :: rs) (d1 :: ds) I1 TR1). { apply (thr_nz nDim thr); auto. } rewrite app_length. cbn [length]. lia.
Qed.
Theorem solve_conv nIter nDim thr rhs x n : 0 < thr -> dimension_le v n -> (forall i, kill i = false) -> (Z.of_nat n <= nIter)%Z -> so_conv (solve v A K kill nIter nDim thr rhs x) = true.
Proof.
  intros T D NK L. unfold solve. set (r := axpy v (-1) (A x) rhs). destruct (Rltb (rzNorm nDim (r ** K r)) thr) eqn:C; [reflexivity|].
  destruct (start_ok r r x (r ** K r)) as [I TR]. apply (loop_conv nDim thr n _ T D NK 0 x r r 0 _ [] [] I (TR eq_refl)). { apply (thr_nz nDim thr); auto. } cbn [length]. lia.
Qed.
End S.

(** example *)
Lemma mat2_sym a b c : symmetric ops2 (mat2 a b b c).
Proof. intros (x1, x2) (y1, y2). cbn. ring. Qed.
Lemma mat2_def a c : 0 < a -> 0 < c -> definite ops2 (mat2 a 0 0 c).
Proof.
  intros Ha Hc (x1, x2) ((y1, y2) & N). cbn in *. destruct (Req_dec x1 0) as [->|N1].
  { destruct (Req_dec x2 0) as [->|N2]; [exfalso; apply N; ring|]. assert (Q := Rsqr_pos_lt x2 N2). unfold Rsqr in Q. nra. }
  { assert (Q := Rsqr_pos_lt x1 N1). assert (Q2 := Rle_0_sqr x2). unfold Rsqr in *. nra. }
Qed.
Lemma dim2 : dimension_le ops2 2.
Proof.
  intros f. destruct (f 0%nat) as (a, b) eqn:E0. destruct (f 1%nat) as (c, d) eqn:E1. destruct (f 2%nat) as (e, g) eqn:E2.
  set (ex := fun c0 c1 c2 (i : nat) => match i with 0%nat => c0 | 1%nat => c1 | _ => c2 end : R).
  assert (G : forall c0 c1 c2 : R, (c0 <> 0 \/ c1 <> 0 \/ c2 <> 0) -> c0 * a + c1 * c + c2 * e = 0 -> c0 * b + c1 * d + c2 * g = 0 ->
    exists c : nat -> R, (exists i, (i <= 2)%nat /\ c i <> 0) /\ vsum ops2 (fun i => v_scal ops2 (c i) (f i)) 3 = v_zero ops2).
  { intros c0 c1 c2 N X Y. exists (ex c0 c1 c2). split. { destruct N as [N|[N|N]]; [exists 0%nat|exists 1%nat|exists 2%nat]; split; auto with arith. }
    cbn [vsum]. rewrite E0, E1, E2. cbn. f_equal; lra. }
  destruct (Req_dec (c * g - d * e) 0) as [Z0|N0]; [|apply (G (c * g - d * e) (e * b - g * a) (a * d - b * c)); [auto|ring|ring]].
  destruct (Req_dec (e * b - g * a) 0) as [Z1|N1]; [|apply (G (c * g - d * e) (e * b - g * a) (a * d - b * c)); [auto|ring|ring]].
  destruct (Req_dec (a * d - b * c) 0) as [Z2|N2]; [|apply (G (c * g - d * e) (e * b - g * a) (a * d - b * c)); [auto|ring|ring]].
  destruct (Req_dec (a * a + b * b) 0) as [Z|N].
  { assert (a = 0) by nra. assert (b = 0) by nra. subst. apply (G 1 0 0); [left; lra|ring|ring]. }
  { apply (G (a * c + b * d) (- (a * a + b * b)) 0); [right; left; lra| |].
    { replace ((a * c + b * d) * a + - (a * a + b * b) * c + 0 * e) with (b * (a * d - b * c)) by ring. rewrite Z2. ring. }
    { replace ((a * c + b * d) * b + - (a * a + b * b) * d + 0 * g) with (- a * (a * d - b * c)) by ring. rewrite Z2. ring. } }
Qed.
