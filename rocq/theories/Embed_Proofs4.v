(** Expansion and shrinking. *)
From Coq Require Import ZArith Reals List Bool Lia Lra Psatz Permutation.
From Verif Require Import Base Vec3_Model Vec3_Facts RealUtil Coulomb_Model Coulomb_Proofs WS_Model WS_Spec WS_Proofs WS_Proofs2 WS_Proofs3 IntUtil_Model IntUtil_Proofs CellMap_Model CellMap_Spec CellMap_Proofs CellMap_Proofs2 CellMap_Proofs3 CellMap_Proofs4 Embed_Model Embed_Spec Embed_Proofs Embed_Proofs2 Embed_Proofs3.
Import ListNotations.
Local Open Scope R_scope.

Lemma pairs_snd (o : Z -> option (Z * Z)) l : (forall p, In p l -> forall i q, o p = Some (i, q) -> q = p) -> NoDup l ->
  NoDup (map snd (pairsOf (map o l))) /\ forall q, In q (map snd (pairsOf (map o l))) -> In q l.
Proof.
  induction l as [|p l IH]; intros H N. { split; [constructor|intros q []]. }
  inversion N as [|a b N1 N2]; subst. destruct IH as [A B]; [intros; eapply H; [right|]; eauto|auto|]. unfold pairsOf in *. cbn [map flat_map]. rewrite map_app. destruct (o p) as [[i q]|] eqn:E; cbn [map app].
  { assert (q = p) by (eapply H; [left; reflexivity|eauto]). subst q. cbn [snd]. split; [constructor; auto|]. intros x [<-|I]; [left; auto|right; auto]. }
  { split; [auto|]. intros x I. right; auto. }
Qed.
Lemma pairs_mem (o : Z -> option (Z * Z)) l i q : In (i, q) (pairsOf (map o l)) <-> exists p, In p l /\ o p = Some (i, q).
Proof.
  unfold pairsOf. rewrite in_flat_map. split.
  { intros (x & I & J). apply in_map_iff in I. destruct I as (p & E & I). subst x. destruct (o p) as [pr|] eqn:E; [|destruct J]. destruct J as [->|[]]. eauto. }
  { intros (p & I & E). exists (o p). split; [apply in_map; auto|]. rewrite E. left. auto. }
Qed.

  Lemma rsum_single {T} (f : T -> R) (l : list T) a : NoDup l -> In a l -> (forall b, In b l -> b <> a -> f b = 0) -> rsum f l = f a.
  Proof.
    induction l as [|b l IH]; intros N I H; [destruct I|]. rewrite rsum_cons. inversion N as [|x y X Y]; subst. destruct (Classical_Prop.classic (b = a)) as [->|D].
    { assert (Z : forall b, In b l -> f b = 0). { intros b J. apply H; [right; auto|]. intros ->. auto. }
      assert (Z0 : rsum f l = 0); [|lra]. clear - Z. induction l as [|c l IH]; [reflexivity|]. rewrite rsum_cons, IH by (intros; apply Z; right; auto). rewrite Z by (left; auto). lra. }
    { destruct I as [->|I]; [destruct (D eq_refl)|]. rewrite (H b) by (auto; left; auto). rewrite IH; auto. { lra. } intros c J. apply H. right. auto. }
  Qed.

Section Sys.
  Variables (Rl : mat R) (faces : list face) (tr : nat -> bool) (S Se : vec Z).
  Hypothesis DR : rdet Rl <> 0.
  Hypothesis VF : List.Forall (fun f => nonzero (img f) /\ f = bisector Rl (img f)) faces.
  Hypothesis BC : bounds_cell Rl (map img faces).
  Hypothesis PS : posS S.
  Hypothesis DB : doubled tr S Se.
  Hypothesis TO : truncation_orthogonal Rl tr.
  Hypothesis RS : resolved Rl S (map img faces) tol.
  Hypothesis FT : fits16 Rl S.
  Notation image := (image Rl S Se).

  Definition system (fuel : nat) (e : Z -> Z) (pairs : list (Z * Z)) : Prop :=
    embedIndexList fuel faces S Se = Some (map e (zrange 0 (nrOf S))) /\ (forall i, (0 <= i < points S)%Z -> image i (e i)) /\
    boundaryPairs fuel Rl faces S Se = Some pairs /\ NoDup (map snd pairs) /\ (forall i p, In (i, p) pairs -> image i p) /\
    (forall i p p', image i p -> image i p' -> p <> p' -> In (i, p) pairs) /\
    ((exists i p r, image i p /\ p = flatMod Se r /\ forall r', congr Se r r' -> in_cell Rl (frac S r') -> onBd Rl faces (frac S r')) -> pairs <> []) /\
    (forall i p, In (i, p) pairs -> exists r, onBd Rl faces (frac S r)).
  Lemma system_ex : exists fuel0 e pairs, forall fuel, (fuel0 <= fuel)%nat -> system fuel e pairs.
  Proof.
    assert (PE := PE tr S Se PS DB).
    destruct (uniform (fun fuel i p => embedIndexOf fuel faces S Se i = Some p /\ image i p) (points S)) as (f1 & H1).
    { intros i Hi. destruct (embed_index Rl faces tr S Se DR VF BC PS DB RS i Hi) as (f & p & A & B). exists f, p. intros. split; auto. }
    destruct (uniform (fun fuel p o => boundaryPair fuel Rl faces S Se p = Some o /\ exists r, p = flatMod Se r /\ ((exists i, image i p) -> in_cell Rl (frac S r)) /\ ((onBd Rl faces (frac S r) /\ o = Some (flatMod S r, p)) \/ (~ onBd Rl faces (frac S r) /\ o = None))) (points Se)) as (f2 & H2).
    { intros p Hp. destruct (pair_of Rl faces tr S Se DR VF BC PS DB TO RS FT p Hp) as (f & o & A & B). exists f, o. intros. split; auto. }
    set (fuel0 := Nat.max f1 f2).
    set (e := fun i => match embedIndexOf fuel0 faces S Se i with Some p => p | None => 0%Z end).
    set (o := fun p => match boundaryPair fuel0 Rl faces S Se p with Some x => x | None => None end).
    assert (He : forall i, (0 <= i < points S)%Z -> image i (e i) /\ forall fuel, (fuel0 <= fuel)%nat -> embedIndexOf fuel faces S Se i = Some (e i)).
    { intros i Hi. destruct (H1 i Hi) as (p & G). destruct (G fuel0 ltac:(lia)) as [A B]. unfold e. rewrite A. split; [auto|]. intros fuel F. apply G. lia. }
    assert (Ho : forall p, (0 <= p < points Se)%Z -> (exists r, p = flatMod Se r /\ ((exists i, image i p) -> in_cell Rl (frac S r)) /\ ((onBd Rl faces (frac S r) /\ o p = Some (flatMod S r, p)) \/ (~ onBd Rl faces (frac S r) /\ o p = None))) /\ forall fuel, (fuel0 <= fuel)%nat -> boundaryPair fuel Rl faces S Se p = Some (o p)).
    { intros p Hp. destruct (H2 p Hp) as (x & G). destruct (G fuel0 ltac:(lia)) as [A B]. unfold o. rewrite A. split; [exact B|]. intros fuel F. apply G. lia. }
    clearbody e o. exists fuel0, e, (pairsOf (map o (zrange 0 (nrOf Se)))). intros fuel F.
    assert (Rg : forall p, In p (zrange 0 (nrOf Se)) <-> (0 <= p < points Se)%Z). { intros p. rewrite in_zrange. reflexivity. }
    assert (SN : forall p, In p (zrange 0 (nrOf Se)) -> forall i q, o p = Some (i, q) -> q = p).
    { intros p I i q E. apply Rg in I. destruct (Ho p I) as [(r & _ & _ & [[_ Q]|[_ Q]]) _]; rewrite Q in E; [injection E as _ E; auto|discriminate]. }
    split; [|split; [|split; [|split; [|split; [|split; [|split]]]]]].
    { unfold embedIndexList. apply collect_map. intros i I. apply He; auto. apply in_zrange in I. exact I. }
    { intros i Hi. apply He; auto. }
    { unfold boundaryPairs. rewrite (collect_map _ o). { reflexivity. } intros p I. apply Ho; auto. apply Rg. exact I. }
    { apply (pairs_snd o); [exact SN|apply nodup_zrange]. }
    { intros i p I. apply pairs_mem in I. destruct I as (p' & I & E). assert (p = p') by (eapply SN; eauto). subst p'. apply Rg in I. destruct (Ho p I) as [(r & A & _ & [[B Q]|[_ Q]]) _]; rewrite Q in E; [|discriminate]. injection E as <-. exists r. split; [apply B|]. split; auto. }
    { intros i p p' P P' D. assert (R := proj2 (image_range Rl tr S Se PS DB i p P)). assert (R' := proj2 (image_range Rl tr S Se PS DB i p' P')).
      destruct (Ho p R) as [(r & A & B & Q) _]. destruct (Ho p' R') as [(r' & A' & B' & _) _].
      assert (C : in_cell Rl (frac S r)) by eauto. assert (C' : in_cell Rl (frac S r')) by eauto.
      assert (Ei : i = flatMod S r). { apply (image_fun Rl tr S Se PS DB i (flatMod S r) p); [auto|]. exists r. auto. }
      assert (Ei' : i = flatMod S r'). { apply (image_fun Rl tr S Se PS DB i (flatMod S r') p'); [auto|]. exists r'. auto. }
      assert (G : congr S r r') by (apply flat_iff; [auto|congruence]). destruct G as (n & G).
      assert (OB : onBd Rl faces (frac S r)).
      { apply (shared Rl faces tr S DR VF BC TO RS FT (frac S r) n); [auto| |]. { rewrite <- frac_add by auto. rewrite <- G. auto. }
        intros Z0. apply D. rewrite A, A'. f_equal. rewrite G, Z0. destruct r as [a b c]. unfold zvadd, gvadd, hmul. cbn [c0 c1 c2]. f_equal; ring. }
      apply pairs_mem. exists p. split; [apply Rg; auto|]. destruct Q as [[_ Q]|[Q _]]; [rewrite Q; congruence|destruct (Q OB)]. }
    { intros (i & p & r & P & E & B). assert (R := proj2 (image_range Rl tr S Se PS DB i p P)). destruct (Ho p R) as [(r' & A & IC & Q) _].
      assert (OB : onBd Rl faces (frac S r')). { apply B; [|eauto]. apply flat_iff; [auto|congruence]. }
      destruct Q as [[_ Q]|[Q _]]; [|destruct (Q OB)]. intros N. assert (I : In (flatMod S r', p) (pairsOf (map o (zrange 0 (nrOf Se))))) by (apply pairs_mem; exists p; split; [apply Rg; auto|auto]). rewrite N in I. destruct I. }
    { intros i p I. apply pairs_mem in I. destruct I as (p' & I & E). apply Rg in I. destruct (Ho p' I) as [(r & A & _ & [[B Q]|[_ Q]]) _]; rewrite Q in E; [|discriminate]. eauto. }
  Qed.
  (** even meshes have points on the boundary *)
  Lemma even_bd : (exists k, (k < 3)%nat /\ Z.Even (vget S k)) ->
    exists i p r, image i p /\ p = flatMod Se r /\ forall r', congr Se r r' -> in_cell Rl (frac S r') -> onBd Rl faces (frac S r').
  Proof.
    intros (k & K & h & Eh). set (u := (V (if Nat.eqb k 0 then 1 else 0) (if Nat.eqb k 1 then 1 else 0) (if Nat.eqb k 2 then 1 else 0))%Z).
    set (v := (V (if Nat.eqb k 0 then h else 0) (if Nat.eqb k 1 then h else 0) (if Nat.eqb k 2 then h else 0))%Z).
    assert (E2 : forall n, rvadd (frac S (zvadd v (hmul S n))) (frac S (zvadd v (hmul S n))) = vIZR (zvadd u (zvadd n n))).
    { intros n. assert (Q : rvadd (frac S v) (frac S v) = vIZR u).
      { assert (P := PS). destruct P as (A & B & C). apply IZR_lt in A, B, C. unfold frac, u, v, vIZR, vmap. cbn [c0 c1 c2]. destruct k as [|[|[|k]]]; [| | |lia]; cbn [Nat.eqb vget] in *; rewrite ?Eh in *; rewrite ?mult_IZR in *; revert A B C; generalize (IZR (c0 S)) (IZR (c1 S)) (IZR (c2 S)) (IZR h); intros s t w x A B C; v3u; f_equal; field; lra. }
      rewrite frac_add by auto. rewrite !vIZR_add, <- Q. generalize (frac S v) (vIZR n). intros [a b c] [d e f]. v3u. f_equal; ring. }
    assert (BD : forall r', congr S v r' -> in_cell Rl (frac S r') -> onBd Rl faces (frac S r')).
    { intros r' (n & E) C. apply (shared Rl faces tr S DR VF BC TO RS FT _ (zvopp (zvadd u (zvadd n n)))); [auto| |].
      { rewrite zopp_R, <- E2, <- E. replace (rvadd (frac S r') (rvopp (rvadd (frac S r') (frac S r')))) with (rvopp (frac S r')). { apply cell_opp; auto. } generalize (frac S r'). intros [a b c]. v3u. f_equal; ring. }
      { intros Z0. assert (O : forall a, (1 + (a + a) <> 0)%Z) by (intros; lia). destruct n as [a b c]. unfold u, zvopp, gvopp, vmap, zvadd, gvadd in Z0. cbn [c0 c1 c2] in Z0. injection Z0 as Z0 Z1 Z2. destruct k as [|[|[|k]]]; [| | |lia]; cbn [Nat.eqb] in *; lia. } }
    destruct (mesh_reduce Rl faces DR VF BC S v PS) as (f & r & _ & G & L).
    assert (C : in_cell Rl (frac S r)) by (apply (exact_cell Rl faces S BC RS); auto).
    exists (flatMod S r), (flatMod Se r), r. split; [exists r; auto|]. split; [auto|]. intros r' G' C'. apply BD; [|auto]. eapply congr_trans; [exact G|]. apply (congr_coarse tr S Se DB); auto.
  Qed.
  Lemma class_images fuel e pairs order i l : system fuel e pairs -> Permutation order pairs -> (0 <= i < points S)%Z -> images Rl S Se i l ->
    classOf order i l \/ ((forall p, ~ In (i, p) order) /\ l = [e i]).
  Proof.
    intros (_ & IE & _ & _ & PI & IP & _) PO Hi (ND & IM). assert (IO : forall x, In x order <-> In x pairs) by (intros; split; apply Permutation_in; auto using Permutation_sym).
    destruct (Classical_Prop.classic (exists p, In (i, p) order)) as [(p & I)|N].
    { left. split; [|split; [auto|]]. { intros ->. destruct (proj2 (IM (e i)) (IE i Hi)). }
      intros q. rewrite IM. split; [|intros J; apply PI, IO, J]. intros Q. destruct (Z.eq_dec q p) as [->|D]; [auto|]. apply IO. apply (IP i q p); auto. apply PI, IO, I. }
    { right. split; [eauto|]. assert (U : forall q, In q l -> q = e i). { intros q Q. apply IM in Q. destruct (Z.eq_dec q (e i)) as [|D]; [auto|]. destruct N. exists q. apply IO. apply (IP i q (e i)); auto. }
      assert (Q := proj2 (IM (e i)) (IE i Hi)). destruct l as [|a [|b l]]; [destruct Q| |]. { rewrite (U a) by (left; auto). reflexivity. }
      inversion ND as [|x y X Y]; subst. destruct X. rewrite (U a), (U b) by (cbn; auto). left; auto. }
  Qed.
  Lemma expand_val fuel e pairs order x : system fuel e pairs -> pairs <> [] -> Permutation order pairs -> exists y, embedExpand fuel faces S Se order x = Some y /\
    (forall i l p, (0 <= i < points S)%Z -> images Rl S Se i l -> In p l -> y p = x i / INR (length l)) /\ (forall p, (forall i, ~ image i p) -> y p = 0).
  Proof.
    intros Sy NE PO. assert (SY := Sy). destruct SY as (EL & IE & _ & ND & PI & IP & _). assert (IO : forall a, In a order <-> In a pairs) by (intros; split; apply Permutation_in; auto using Permutation_sym).
    unfold embedExpand. rewrite EL. set (f := fun i => nth (Z.to_nat i) (map e (zrange 0 (nrOf S))) 0%Z). set (v := scatter f (nrOf S) x (fun _ => 0)).
    assert (Fe : forall i, (0 <= i < points S)%Z -> f i = e i) by (intros i Hi; apply nth_zrange; exact Hi).
    assert (Inj : forall i j, (0 <= i < nrOf S)%Z -> (0 <= j < nrOf S)%Z -> f i = f j -> i = j). { intros i j Hi Hj E. rewrite !Fe in E by auto. apply (image_fun Rl tr S Se PS DB i j (e i)); [auto|]. rewrite E. auto. }
    assert (V1 : forall i, (0 <= i < points S)%Z -> v (e i) = x i). { intros i Hi. apply (scatter_val f (nrOf S) x (e i) Inj); [exact Hi|]. rewrite Fe; auto. }
    assert (V0 : forall p, (forall i, (0 <= i < points S)%Z -> p <> e i) -> v p = 0). { intros p Hp. apply (scatter_val f (nrOf S) x p Inj). intros i Hi. rewrite Fe by exact Hi. auto. }
    clearbody v. destruct (symm_all order v) as (y & E & A & B & C). { intros ->. apply NE. apply Permutation_nil in PO. auto. } { eapply Permutation_NoDup; [apply Permutation_map; apply Permutation_sym; exact PO|auto]. }
    rewrite E. exists y. split; [reflexivity|]. split.
    { intros i l p Hi IM I. destruct (class_images fuel e pairs order i l Sy PO Hi IM) as [CL|[N ->]].
      { rewrite (A i l p CL I). unfold avg. f_equal. destruct IM as [NDl IM]. rewrite (rsum_single v l (e i)); [auto|auto|apply IM; auto|]. intros q Q D. apply V0. intros j Hj ->. apply D. apply IM in Q. f_equal. apply (image_fun Rl tr S Se PS DB j i (e j)); auto. }
      { destruct I as [<-|[]]. cbn [length INR]. rewrite B. { rewrite V1 by auto. field. } intros Q. apply in_map_iff in Q. destruct Q as ([j q] & Q1 & Q2). cbn [snd] in Q1. subst q. apply (N (e i)). assert (X := PI _ _ (proj1 (IO _) Q2)). assert (ij : i = j) by (apply (image_fun Rl tr S Se PS DB i j (e i)); auto). subst j. auto. } }
    { intros p Hp. rewrite B. { apply V0. intros i Hi ->. apply (Hp i). auto. } intros Q. apply in_map_iff in Q. destruct Q as ([j q] & Q1 & Q2). cbn [snd] in Q1. subst q. apply (Hp j). apply PI, IO, Q2. }
  Qed.
  Lemma shrink_val fuel e pairs order y : system fuel e pairs -> pairs <> [] -> Permutation order pairs -> exists x, embedShrink fuel faces S Se order y = Some x /\
    (forall i l, (0 <= i < points S)%Z -> images Rl S Se i l -> x i = lsum y l / INR (length l)).
  Proof.
    intros Sy NE PO. assert (SY := Sy). destruct SY as (EL & IE & _ & ND & PI & IP & _). assert (IO : forall a, In a order <-> In a pairs) by (intros; split; apply Permutation_in; auto using Permutation_sym).
    unfold embedShrink. rewrite EL. set (f := fun i => nth (Z.to_nat i) (map e (zrange 0 (nrOf S))) 0%Z).
    destruct (symm_all order y) as (y' & E & A & B & C). { intros ->. apply NE. apply Permutation_nil in PO. auto. } { eapply Permutation_NoDup; [apply Permutation_map; apply Permutation_sym; exact PO|auto]. }
    rewrite E. eexists. split; [reflexivity|]. intros i l Hi IM. unfold gather. destruct (Z.leb_spec 0 i); [|lia]. destruct (Z.ltb_spec i (nrOf S)) as [|Q]; [|unfold nrOf, points in *; lia]. cbn [andb]. rewrite Rplus_0_l.
    assert (Fe : f i = e i) by (apply nth_zrange; exact Hi). fold f. rewrite Fe. rewrite lsum_rsum. destruct (class_images fuel e pairs order i l Sy PO Hi IM) as [CL|[N ->]].
    { apply (A i l (e i) CL). apply IM. auto. }
    { rewrite B. { rewrite rsum_cons. cbn. field. } intros Q. apply in_map_iff in Q. destruct Q as ([j q] & Q1 & Q2). cbn [snd] in Q1. subst q. apply (N (e i)). assert (X := PI _ _ (proj1 (IO _) Q2)). assert (ij : i = j) by (apply (image_fun Rl tr S Se PS DB i j (e i)); auto). subst j. auto. }
  Qed.
End Sys.
