(** Trial steps, fixed lattice vectors and vibrations. *)
From Coq Require Import String ZArith Reals Bool List Lia Lra Psatz.
From Verif Require Import Base SMap Vec3_Model Vec3_Facts Lattice_Model Coulomb_Proofs Sym_Model Sym_Spec Sym_Proofs Sym_Proofs2 Sym_Proofs8 Ions_Model Ions_Spec Ions_Proofs Ions_Proofs2 Ions_Proofs3.
Import ListNotations.
Local Open Scope R_scope.

(** *** steps *)
Lemma ionic_add m d a b x : coincide (ionicStep m d b (ionicStep m d a x)) (ionicStep m d (a + b) x).
Proof.
  intros sp i. unfold ionicStep. destruct (isZero a) eqn:A, (isZero b) eqn:B, (isZero (a + b)) eqn:S; try reflexivity;
    rewrite ?isZero_t, ?isZero_f in *; try (exfalso; lra); unfold gaxpy, gmat; generalize (x sp i) (d sp i) m; intros [p0 p1 p2] [q0 q1 q2] [i00 i01 i02 i10 i11 i12 i20 i21 i22].
  - subst a. v3u. f_equal; ring.
  - subst b. v3u. f_equal; ring.
  - assert (b = - a) by lra. subst b. v3u. f_equal; ring.
  - v3u. f_equal; ring.
Qed.
Lemma ionic_0 m d x : coincide (ionicStep m d 0 x) x.
Proof. intros sp i. unfold ionicStep. assert (Z : isZero 0 = true) by (apply isZero_t; reflexivity). rewrite Z. reflexivity. Qed.
Lemma ionic_back m d a x : coincide (ionicStep m d (- a) (ionicStep m d a x)) x.
Proof. intros sp i. rewrite ionic_add. replace (a + - a) with 0 by ring. apply ionic_0. Qed.
(** without deformation of the lattice *)
Lemma lattice_add_ionic io Ro d L a b s : io = true \/ L = rdiag 0 0 0 -> let st k s := latticeStep io Ro d L k s in
  coincide (lpos (st b (st a s))) (lpos (st (a + b) s)) /\ lR (st b (st a s)) = lR (st (a + b) s) /\ lstrain (st b (st a s)) = lstrain (st (a + b) s).
Proof.
  intros H. cbv zeta. unfold latticeStep. destruct io; cbn [lR lstrain lpos].
  - split; [apply ionic_add|]. split; reflexivity.
  - destruct H as [H|H]; [discriminate|]. subst L. assert (E : forall k, rmm (rmadd rid (rmscale k (rdiag 0 0 0))) (lR s) = lR s) by (intros k; destruct (lR s); v3u; f_equal; ring).
    rewrite !E. split; [apply ionic_add|]. split; reflexivity.
Qed.
Lemma lattice_defect Ro d L a b s : let st k s := latticeStep false Ro d L k s in
  lR (st b (st a s)) = rmadd (lR (st (a + b) s)) (rmscale (a * b) (rmm (rmm L L) (lR s))) /\
  (rdet (rmadd rid (rmscale a L)) <> 0 -> rdet (lR s) <> 0 -> forall sp i, lpos (st b (st a s)) sp i =
    if isZero b then ionicStep (rinv (lR s)) d a (lpos s) sp i else rvadd (ionicStep (rinv (lR s)) d a (lpos s) sp i) (rvscale b (rmv (rinv (lR s)) (rmv (rinv (rmadd rid (rmscale a L))) (d sp i))))).
Proof.
  cbv zeta. unfold latticeStep. cbn [lR lpos]. split.
  - assert (E : forall p q r, rmm (rmadd rid (rmscale b p)) (rmm (rmadd rid (rmscale a p)) q) = rmadd (rmm (rmadd rid (rmscale (a + b) p)) q) (rmscale (a * b) r) <-> rmm p (rmm p q) = r \/ a * b = 0 \/ rmm (rmadd rid (rmscale b p)) (rmm (rmadd rid (rmscale a p)) q) = rmadd (rmm (rmadd rid (rmscale (a + b) p)) q) (rmscale (a * b) r)).
    { intros p q r. split; [tauto|]. intros [<-|[Z|H]]; [| |exact H].
      - rewrite !rmm_assoc. assert (X : rmm (rmadd rid (rmscale b p)) (rmadd rid (rmscale a p)) = rmadd (rmadd rid (rmscale (a + b) p)) (rmscale (a * b) (rmm p p))) by (destruct p; v3u; f_equal; ring).
        rewrite X. generalize (rmm p p) (rmadd rid (rmscale (a + b) p)). intros [] []. destruct q. v3u. f_equal; ring.
      - rewrite rmm_assoc. assert (X : rmm (rmadd rid (rmscale b p)) (rmadd rid (rmscale a p)) = rmadd (rmadd rid (rmscale (a + b) p)) (rmscale (a * b) (rmm p p))) by (destruct p; v3u; f_equal; ring). rewrite X, Z.
        generalize (rmm p p) (rmadd rid (rmscale (a + b) p)). intros [] []. destruct q, r. v3u. f_equal; ring. }
    apply E. left. rewrite rmm_assoc. reflexivity.
  - intros D1 D2 sp i. unfold ionicStep at 1. destruct (isZero b); [reflexivity|]. unfold gaxpy at 1. f_equal. rewrite rinv_mm by assumption. unfold gmat.
    rewrite <- rmv_mm. generalize (rmm (rinv (lR s)) (rinv (rmadd rid (rmscale a L)))) (d sp i). intros [i00 i01 i02 i10 i11 i12 i20 i21 i22] [q0 q1 q2]. v3u. f_equal; ring.
Qed.
Lemma lattice_not_additive : exists Ro d L a b s, rdet (lR s) <> 0 /\ let st k s := latticeStep false Ro d L k s in
  lR (st b (st a s)) <> lR (st (a + b) s) /\ lR (st (- a) (st a s)) <> lR s.
Proof.
  exists rid, gzero, rid, (1/2), (1/2), (LState rid (rdiag 0 0 0) gzero). split; [cbn [lR]; v3u; lra|]. cbv zeta. unfold latticeStep. cbn [lR]. split; intros E; revert E; v3u; intros E; injection E; intros; lra.
Qed.

(** *** projector on the free directions *)
Fixpoint comp (l : list (vec R)) (x : vec R) : vec R := match l with [] => V 0 0 0 | v :: l => rvadd (rvscale (rdot v x) v) (comp l x) end.
Lemma rvsub_eq x y : rvsub x y = V 0 0 0 -> x = y.
Proof. destruct x, y. v3u. intros Q. injection Q as Q0 Q1 Q2. f_equal; lra. Qed.
Lemma rvadd_z v : rvadd v (V 0 0 0) = v. Proof. destruct v. v3u. f_equal; ring. Qed.
Lemma dot_comp l x y : rdot y (comp l x) = fold_right (fun v acc => rdot v x * rdot v y + acc) 0 l.
Proof. induction l as [|v l IH]; cbn [comp fold_right]; [destruct y; v3u; ring|]. rewrite <- IH. generalize (comp l x). intros [p0 p1 p2]. destruct v, x, y. v3u. ring. Qed.
Definition onset (l : list (vec R)) := (forall v, In v l -> rdot v v = 1) /\ ForallOrdPairs (fun u v => rdot u v = 0) l.
Lemma comp_perp l x v : (forall u, In u l -> rdot u v = 0) -> rdot v (comp l x) = 0.
Proof. intros H. rewrite dot_comp. induction l as [|u l IH]; [reflexivity|]. cbn [fold_right]. rewrite (H u (or_introl eq_refl)), IH by (intros; apply H; right; assumption). ring. Qed.
Lemma comp_app l v x : comp (l ++ [v])%list x = rvadd (comp l x) (rvscale (rdot v x) v).
Proof. induction l as [|u l IH]; cbn [comp app]; [generalize (rdot v x); intros; destruct v; v3u; f_equal; ring|]. rewrite IH. generalize (comp l x) (rdot v x) (rdot u x). intros [p0 p1 p2] s t. destruct u, v. v3u. f_equal; ring. Qed.
Lemma fop_app_in {A} (P : A -> A -> Prop) l v : ForallOrdPairs P (l ++ [v])%list <-> ForallOrdPairs P l /\ List.Forall (fun u => P u v) l.
Proof.
  induction l as [|u l IH]; cbn [app].
  - split; [intros _; split; constructor|intros _; constructor; constructor].
  - split.
    + intros H. inversion H as [|? ? F G]; subst. apply IH in G. destruct G as [G1 G2]. apply List.Forall_app in F. destruct F as [F1 F2]. inversion F2; subst. split; constructor; assumption.
    + intros [H F]. inversion H; subst. inversion F; subst. constructor; [apply List.Forall_app; split; [assumption|repeat constructor; assumption]|apply IH; split; assumption].
Qed.
Lemma onset_dot l v : onset l -> In v l -> forall x, rdot v (comp l x) = rdot v x.
Proof.
  intros [N O] H x. rewrite dot_comp. induction l as [|u l IH]; [destruct H|]. inversion O as [|? ? F O']; subst. cbn [fold_right]. destruct H as [-> | H].
  - rewrite N by (left; reflexivity). assert (Z : fold_right (fun w acc => rdot w x * rdot w v + acc) 0 l = 0).
    { clear -F. induction F as [|w l E F IH]; [reflexivity|]. cbn [fold_right]. rewrite IH. replace (rdot w v) with (rdot v w) by (destruct v, w; v3u; ring). rewrite E. ring. }
    rewrite Z. ring.
  - rewrite IH; [|intros; apply N; right; assumption|exact O'|exact H]. rewrite List.Forall_forall in F. rewrite (F v H). ring.
Qed.
(** sequential orthogonalization is subtraction of the component *)
Lemma gs_fold l : onset l -> forall x, fold_left (fun vk vPrev => rvsub vk (rvscale (rdot vPrev vk) vPrev)) l x = rvsub x (comp l x).
Proof.
  assert (G : forall l x y, onset l -> (forall v, In v l -> rdot v y = rdot v x) -> fold_left (fun vk vPrev => rvsub vk (rvscale (rdot vPrev vk) vPrev)) l x = rvsub x (comp l y)).
  { clear l. induction l as [|u l IH]; intros x y O H; cbn [fold_left comp]; [destruct x; v3u; f_equal; ring|]. destruct O as [N P]. inversion P as [|? ? F P']; subst.
    rewrite (IH _ y); [|split; [intros; apply N; right; assumption|exact P']|].
    - rewrite <- (H u (or_introl eq_refl)). generalize (comp l y) (rdot u y). intros [p0 p1 p2] s. destruct x, u. v3u. f_equal; ring.
    - intros v Hv. rewrite H by (right; exact Hv). rewrite List.Forall_forall in F. specialize (F v Hv). transitivity (rdot v x - rdot u x * rdot u v); [rewrite F; ring|]. generalize (rdot u x). intros s. destruct v, x, u. v3u. ring. }
  intros O x. apply G; auto.
Qed.
Section Gram.
  Variables (Rl : mat R) (fixed : nat -> bool).
  Hypothesis HD : rdet Rl <> 0.
  Let av := lattice_vector Rl.
  Let coord i (x : vec R) := vget (rmv (rinv Rl) x) i.
  Lemma coord_lin i s x y : coord i (rvadd (rvscale s x) y) = s * coord i x + coord i y.
  Proof. unfold coord. generalize (rinv Rl). intros [i00 i01 i02 i10 i11 i12 i20 i21 i22]. destruct x, y, i as [|[|i]]; unfold vget; v3u; ring. Qed.
  Lemma coord_col i k : (i < 3)%nat -> (k < 3)%nat -> coord i (av k) = if Nat.eqb i k then 1 else 0.
  Proof.
    intros Hi Hk. assert (E := rinv_l Rl HD). unfold coord, av. revert E. generalize (rinv Rl). intros [i00 i01 i02 i10 i11 i12 i20 i21 i22]. destruct Rl. v3u. intros E. injection E as E0 E1 E2 E3 E4 E5 E6 E7 E8.
    destruct i as [|[|[|i]]], k as [|[|[|k]]]; try lia; cbn [Nat.eqb]; unfold vget, lattice_vector; v3u; assumption.
  Qed.
  Record gram (k : nat) (l : list (vec R)) (P : mat R) : Prop := {
    gr_on : onset l;
    gr_tri : forall v i, In v l -> (k <= i < 3)%nat -> coord i v = 0;
    gr_P : forall x, rmv P x = rvsub x (comp l x);
    gr_kill : forall j, (j < k)%nat -> fixed j = true -> rmv P (av j) = V 0 0 0;
    gr_keep : forall x, (forall j, (j < k)%nat -> fixed j = true -> rdot (av j) x = 0) -> forall v, In v l -> rdot v x = 0;
    gr_sym : mtrans P = P }.
  Lemma gram_skip k l P : gram k l P -> fixed k = false -> gram (S k) l P.
  Proof.
    intros [A B C D E F] H. constructor; auto.
    - intros v i I R. apply B; [exact I|lia].
    - intros j J X. apply D; [|exact X]. assert (j <> k) by congruence. lia.
  Qed.
  Lemma rlen2_zero v : rlen2 v = 0 -> v = V 0 0 0.
  Proof. destruct v as [a b c]. v3u. intros H. assert (a = 0 /\ b = 0 /\ c = 0) as (-> & -> & ->) by (repeat split; nra). reflexivity. Qed.
  Lemma gram_fix k l P : (k < 3)%nat -> gram k l P -> fixed k = true -> gram (S k) (fst (fixStep Rl (l, P) k)) (snd (fixStep Rl (l, P) k)).
  Proof.
    intros Hk [A B C D E F] H. unfold fixStep. rewrite gs_fold by exact A. cbn [fst snd].
    assert (AV : mcol Rl k = av k) by (unfold mcol, av, lattice_vector; destruct k as [|[|k]]; reflexivity). rewrite AV.
    set (u := rvsub (av k) (comp l (av k))). set (s := 1 / rlength u). set (v := rvscale s u).
    assert (CK : coord k (comp l (av k)) = 0).
    { clear -B Hk. induction l as [|w l IH]; cbn [comp].
      - unfold coord. generalize (rinv Rl). intros []. destruct k as [|[|k]]; unfold vget; v3u; ring.
      - rewrite coord_lin, (B w k (or_introl eq_refl)) by lia. rewrite IH by (intros; apply B; [right; assumption|assumption]). ring. }
    assert (CU : coord k u = 1).
    { unfold u. replace (rvsub (av k) (comp l (av k))) with (rvadd (rvscale (-1) (comp l (av k))) (av k)) by (generalize (comp l (av k)) (av k); intros [p0 p1 p2] [q0 q1 q2]; v3u; f_equal; ring).
      rewrite coord_lin, CK, coord_col by lia. rewrite Nat.eqb_refl. ring. }
    assert (NZ : rlen2 u <> 0). { intros Z. apply rlen2_zero in Z. rewrite Z in CU. revert CU. unfold coord. generalize (rinv Rl). intros []. destruct k as [|[|k']]; unfold vget; v3u; lra. }
    assert (PU : 0 < rlen2 u) by (assert (0 <= rlen2 u) by (destruct u; v3u; nra); lra).
    assert (SL : rlength u * rlength u = rlen2 u) by (apply sqrt_sqrt; lra). assert (SP : 0 < rlength u) by (apply sqrt_lt_R0; exact PU).
    assert (VV : rdot v v = 1). { transitivity (s * s * rlen2 u); [unfold v; generalize u; intros [p0 p1 p2]; v3u; ring|]. unfold s. rewrite <- SL. field. lra. }
    assert (PV : forall w, In w l -> rdot w v = 0). { intros w Hw. transitivity (s * (rdot w (av k) - rdot w (comp l (av k)))); [unfold v, u; generalize (comp l (av k)) (av k); intros [p0 p1 p2] [q0 q1 q2]; destruct w; v3u; ring|]. rewrite (onset_dot l w A Hw). ring. }
    constructor.
    - split.
      + intros w Hw. apply in_app_or in Hw. destruct Hw as [Hw|[<-|[]]]; [apply A, Hw|exact VV].
      + apply fop_app_in. split; [apply A|]. apply List.Forall_forall. exact PV.
    - intros w i Hw Hi. apply in_app_or in Hw. destruct Hw as [Hw|[<-|[]]]; [apply B; [exact Hw|lia]|].
      unfold v, u. assert (CI : coord i (comp l (av k)) = 0).
      { clear -B Hi. induction l as [|w l IH]; cbn [comp].
        - unfold coord. generalize (rinv Rl). intros []. destruct i as [|[|i]]; unfold vget; v3u; ring.
        - rewrite coord_lin, (B w i (or_introl eq_refl)) by lia. rewrite IH by (intros; apply B; [right; assumption|assumption]). ring. }
      replace (rvscale s (rvsub (av k) (comp l (av k)))) with (rvadd (rvscale (- s) (comp l (av k))) (rvadd (rvscale s (av k)) (V 0 0 0))) by (generalize (comp l (av k)) (av k); intros [p0 p1 p2] [q0 q1 q2]; v3u; f_equal; ring).
      rewrite !coord_lin, CI, coord_col by lia. destruct (Nat.eqb_spec i k); [lia|]. unfold coord. generalize (rinv Rl). intros []. destruct i as [|[|i]]; unfold vget; v3u; ring.
    - intros x. rewrite comp_app. replace (rmv (rmsub P (outer v v)) x) with (rvsub (rmv P x) (rvscale (rdot v x) v)) by (unfold outer; destruct P, x, v; v3u; f_equal; ring). rewrite C.
      generalize (comp l x) (rdot v x). intros [p0 p1 p2] t. destruct x, v. v3u. f_equal; ring.
    - intros j J X. replace (rmv (rmsub P (outer v v)) (av j)) with (rvsub (rmv P (av j)) (rvscale (rdot v (av j)) v)) by (generalize (av j); intros [x0 x1 x2]; unfold outer; destruct P, v; v3u; f_equal; ring).
      destruct (Nat.eq_dec j k) as [-> | Ne].
      + rewrite C. fold u. assert (DU : rdot u (av k) = rlen2 u).
        { assert (Z : rdot u (comp l (av k)) = 0). { apply comp_perp. intros w Hw. transitivity (rdot w (av k) - rdot w (comp l (av k))); [unfold u; generalize (comp l (av k)) (av k); intros [p0 p1 p2] [q0 q1 q2]; destruct w; v3u; ring|]. rewrite (onset_dot l w A Hw). ring. }
          transitivity (rlen2 u + rdot u (comp l (av k))); [|rewrite Z; ring]. unfold u. generalize (comp l (av k)) (av k). intros [p0 p1 p2] [q0 q1 q2]. v3u. ring. }
        assert (DV : rdot v (av k) = s * rlen2 u) by (rewrite <- DU; unfold v; generalize u (av k); intros [p0 p1 p2] [q0 q1 q2]; v3u; ring).
        rewrite DV. unfold v. assert (SS : s * rlen2 u * s = 1) by (unfold s; rewrite <- SL; field; lra). transitivity (rvscale (1 - s * rlen2 u * s) u); [|rewrite SS; destruct u; v3u; f_equal; ring].
        generalize (rlen2 u). intros t. destruct u. v3u. f_equal; ring.
      + rewrite D by (auto; lia). assert (Z : rdot v (av j) = 0).
        { assert (Q : av j = comp l (av j)). { assert (Q := D j ltac:(lia) X). rewrite C in Q. apply rvsub_eq, Q. }
          rewrite Q. apply comp_perp. exact PV. }
        rewrite Z. destruct v. v3u. f_equal; ring.
    - intros x X w Hw. assert (X' : forall j, (j < k)%nat -> fixed j = true -> rdot (av j) x = 0) by (intros; apply X; [lia|assumption]).
      apply in_app_or in Hw. destruct Hw as [Hw|[<-|[]]]; [apply (E x X' w Hw)|].
      assert (Z : rdot x (comp l (av k)) = 0) by (apply comp_perp; intros z Hz; apply (E x X' z Hz)). assert (Y := X k ltac:(lia) H).
      transitivity (s * (rdot (av k) x - rdot x (comp l (av k)))); [unfold v, u; generalize (comp l (av k)) (av k); intros [p0 p1 p2] [q0 q1 q2]; destruct x; v3u; ring|rewrite Y, Z; ring].
    - unfold outer. assert (F' := F). revert F'. destruct P as [q00 q01 q02 q10 q11 q12 q20 q21 q22], v as [w0 w1 w2]. v3u. intros F'. injection F'. intros. f_equal; try ring; subst; ring.
  Qed.
  Lemma gram_start : gram 0 [] rid.
  Proof. constructor; try (intros; contradiction); try (intros; lia); [split; [intros ? []|constructor]| |v3u; reflexivity]. intros [a b c]. cbn [comp]. v3u. f_equal; ring. Qed.
  Lemma gram_all : gram 3 (fst (PfreeOf Rl fixed)) (snd (PfreeOf Rl fixed)).
  Proof.
    unfold PfreeOf. cbn [fold_left].
    assert (G : forall k st, (k < 3)%nat -> gram k (fst st) (snd st) -> gram (S k) (fst (if fixed k then fixStep Rl st k else st)) (snd (if fixed k then fixStep Rl st k else st))).
    { intros k [l P] Hk H. destruct (fixed k) eqn:E; [apply gram_fix; assumption|apply gram_skip; assumption]. }
    apply G; [lia|]. apply G; [lia|]. apply G; [lia|]. apply gram_start.
  Qed.
  Definition P := snd (PfreeOf Rl fixed).
  Lemma P_props : mtrans P = P /\ rmm P P = P /\ (forall k, (k < 3)%nat -> fixed k = true -> rmv P (av k) = V 0 0 0) /\ (forall x, (forall k, (k < 3)%nat -> fixed k = true -> rdot (av k) x = 0) -> rmv P x = x).
  Proof.
    destruct gram_all as [A B C D E F]. fold P in C, D, F. split; [exact F|]. split; [|split; [exact D|]].
    - assert (I : forall x, rmv P (rmv P x) = rmv P x).
      { intros x. rewrite (C (rmv P x)). assert (Z : forall v, In v (fst (PfreeOf Rl fixed)) -> rdot v (rmv P x) = 0).
        { intros v Hv. rewrite C. transitivity (rdot v x - rdot v (comp (fst (PfreeOf Rl fixed)) x)); [generalize (comp (fst (PfreeOf Rl fixed)) x); intros [p0 p1 p2]; destruct v, x; v3u; ring|]. rewrite (onset_dot _ v A Hv). ring. }
        assert (W : comp (fst (PfreeOf Rl fixed)) (rmv P x) = V 0 0 0). { revert Z. generalize (fst (PfreeOf Rl fixed)). intros l. induction l as [|v l IH]; intros Z; cbn [comp]; [reflexivity|]. rewrite IH by (intros; apply Z; right; assumption). rewrite (Z v (or_introl eq_refl)). destruct v. v3u. f_equal; ring. }
        rewrite W. generalize (rmv P x). intros [p0 p1 p2]. v3u. f_equal; ring. }
      assert (I0 := I (V 1 0 0)). assert (I1 := I (V 0 1 0)). assert (I2 := I (V 0 0 1)). rewrite <- rmv_mm in I0, I1, I2. revert I0 I1 I2. generalize (rmm P P) P. intros [a00 a01 a02 a10 a11 a12 a20 a21 a22] [b00 b01 b02 b10 b11 b12 b20 b21 b22]. v3u. intros I0 I1 I2. injection I0. injection I1. injection I2. intros. f_equal; lra.
    - intros x X. rewrite C. assert (Z := E x X). assert (W : comp (fst (PfreeOf Rl fixed)) x = V 0 0 0). { revert Z. generalize (fst (PfreeOf Rl fixed)). intros l. induction l as [|v l IH]; intros Z; cbn [comp]; [reflexivity|]. rewrite IH by (intros; apply Z; right; assumption). rewrite (Z v (or_introl eq_refl)). destruct v. v3u. f_equal; ring. }
      rewrite W. destruct x. v3u. f_equal; ring.
  Qed.
End Gram.
