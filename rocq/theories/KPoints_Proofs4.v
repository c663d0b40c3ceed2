(** reduceKmesh with the actual periodic lookup; a set of symmetries that is not a group; examples. *)
From Coq Require Import ZArith Reals List Lia Lra Bool.
From Verif Require Import Base WorkDiv_Model Vec3_Model Vec3_Facts Lattice_Model Lattice_Spec Lattice_Proofs3 RealUtil
  KPoints_Model KPoints_Spec KPoints_Proofs KPoints_Proofs2 KPoints_Proofs3.
Import ListNotations.
Open Scope R_scope.

Definition lookupK (thr : R) (qs : list qnum) (lk : lookup) (v : vec R) : option nat :=
  match lookup_find thr (map q_k qs) (fun _ => true) lk v with Done r => r | _ => None end.

Lemma sin_PI_IZR (n : Z) : sin (PI * IZR n) = 0.
Proof. rewrite Rmult_comm. apply sin_eq_0_1. exists n. reflexivity. Qed.
Lemma chord2_cong a b : congV a b -> chord2 a b = 0.
Proof.
  intros ((i&Hi)&(j&Hj)&(k&Hk)). unfold chord2. rewrite Hi, Hj, Hk, !sin_PI_IZR. ring.
Qed.

Lemma lookupK_exact thr sym qs metric n lk : 0 < thr -> mkLookup thr (map q_k qs) metric n = Done lk ->
  (forall q neg rot q', In q qs -> In rot sym -> In q' qs -> chord2 (imageOf neg rot (q_k q)) (q_k q') < thr * thr ->
     congV (imageOf neg rot (q_k q)) (q_k q')) ->
  exact_lookup sym qs (lookupK thr qs lk).
Proof.
  intros Ht Hm Hsep q neg rot Hq Hr. unfold lookupK.
  destruct (lookup_total thr (map q_k qs) metric n lk (fun _ => true) (imageOf neg rot (q_k q)) Ht Hm) as (r&->&H).
  destruct r as [d|].
  - destruct H as (_&p&Hp&C&_). rewrite nth_error_map in Hp. destruct (nth_error qs d) as [q'|] eqn:E; [|discriminate]. injection Hp as <-.
    exists q'. split; auto. apply Hsep; auto. eapply nth_error_In; eauto.
  - intros q' Hq' C. apply In_nth_error in Hq' as (i&Hi). destruct (H i (q_k q')) as (H1&_); auto.
    + rewrite nth_error_map, Hi. reflexivity.
    + rewrite (chord2_cong _ _ C) in H1. assert (0 < thr*thr) by (apply Rmult_lt_0_compat; auto). lra.
Qed.

Lemma reduceKmesh_lookup thr sym inv qs metric n lk nProcs :
  (Z.of_nat (List.length qs) < 2^32)%Z -> (Z.of_nat (List.length sym) < 2^31)%Z -> is_group sym -> distinct_mesh qs ->
  0 < thr -> mkLookup thr (map q_k qs) metric n = Done lk ->
  (forall q neg rot q', In q qs -> In rot sym -> In q' qs -> chord2 (imageOf neg rot (q_k q)) (q_k q') < thr * thr ->
     congV (imageOf neg rot (q_k q)) (q_k q')) -> (0 < nProcs)%Z ->
  exists red m, reduceKmesh (lookupK thr qs lk) sym inv qs nProcs = Some (red,m) /\ kmesh_reduction sym inv qs red kmapUnpack m.
Proof. intros. apply reduceKmesh_correct; auto. eapply lookupK_exact; eauto. Qed.

(** ** A list of symmetries that is not closed under products *)
Definition cyc : mat Z := (M 0 1 0  0 0 1  1 0 0)%Z.
Definition cyc2 : mat Z := (M 0 0 1  1 0 0  0 1 0)%Z.
Definition mesh3 : list qnum := [QN (V (1/2) 0 0) 0 (1/3); QN (V 0 (1/2) 0) 0 (1/3); QN (V 0 0 (1/2)) 0 (1/3)].
Definition find3 (v : vec R) : option nat :=
  if Req_EM_T (Rabs (c0 v)) (1/2) then Some 0%nat else if Req_EM_T (Rabs (c1 v)) (1/2) then Some 1%nat else
  if Req_EM_T (Rabs (c2 v)) (1/2) then Some 2%nat else None.

Lemma find3_0 v : c0 v = 1/2 \/ c0 v = -(1/2) -> find3 v = Some 0%nat.
Proof. intros H. unfold find3. destruct (Req_EM_T (Rabs (c0 v)) (1/2)) as [|N]; auto. exfalso. apply N. destruct H as [-> | ->]; unfold Rabs; destruct (Rcase_abs _); lra. Qed.
Lemma find3_1 v : c0 v = 0 -> c1 v = 1/2 \/ c1 v = -(1/2) -> find3 v = Some 1%nat.
Proof.
  intros E H. unfold find3. destruct (Req_EM_T (Rabs (c0 v)) (1/2)) as [N|_]. { rewrite E, Rabs_R0 in N. lra. }
  destruct (Req_EM_T (Rabs (c1 v)) (1/2)) as [|N]; auto. exfalso. apply N. destruct H as [-> | ->]; unfold Rabs; destruct (Rcase_abs _); lra.
Qed.
Lemma find3_2 v : c0 v = 0 -> c1 v = 0 -> c2 v = 1/2 \/ c2 v = -(1/2) -> find3 v = Some 2%nat.
Proof.
  intros E E1 H. unfold find3. destruct (Req_EM_T (Rabs (c0 v)) (1/2)) as [N|_]. { rewrite E, Rabs_R0 in N. lra. }
  destruct (Req_EM_T (Rabs (c1 v)) (1/2)) as [N|_]. { rewrite E1, Rabs_R0 in N. lra. }
  destruct (Req_EM_T (Rabs (c2 v)) (1/2)) as [|N]; auto. exfalso. apply N. destruct H as [-> | ->]; unfold Rabs; destruct (Rcase_abs _); lra.
Qed.

Lemma half_cong0 : ~ cong1 (1/2) 0.
Proof.
  intros (n&H). assert (A : 0 < IZR n < 1) by lra. destruct A as (A&B). apply lt_IZR in A, B. lia.
Qed.
Lemma half_cong0' : ~ cong1 0 (1/2). Proof. intros H. apply half_cong0. apply cong1_sym. auto. Qed.
Lemma mesh3_distinct : distinct_mesh mesh3.
Proof.
  intros i j a b Hi Hj (C0&C1&C2).
  destruct i as [|[|[|i]]], j as [|[|[|j]]]; try reflexivity; cbn in Hi, Hj; try (destruct i; discriminate); try (destruct j; discriminate);
    injection Hi as <-; injection Hj as <-; cbn in C0, C1, C2; exfalso;
    first [apply half_cong0; assumption | apply half_cong0'; assumption].
Qed.
Lemma cong_half_neg : cong1 (-(1/2)) (1/2). Proof. exists (-1)%Z. lra. Qed.

Ltac vals := unfold imageOf, kimage, cyc, cyc2; v3_unfold; cbn; first [lra|left; lra|right; lra].
Ltac f3 := first [solve [apply find3_0; vals]|solve [apply find3_1; vals]|solve [apply find3_2; vals]].
Lemma find3_exact sym : (forall r, In r sym -> r = zid \/ r = cyc \/ r = cyc2) -> exact_lookup sym mesh3 find3.
Proof.
  intros Hs q neg rot Hq Hr.
  assert (G : exists s d q', (s = 1/2 \/ s = -(1/2)) /\ find3 (imageOf neg rot (q_k q)) = Some d /\ nth_error mesh3 d = Some q' /\
     imageOf neg rot (q_k q) = rvscale (2*s) (q_k q')).
  { destruct (Hs _ Hr) as [->|[->| ->]]; clear Hr Hs; cbn in Hq; destruct Hq as [<-|[<-|[<-|[]]]]; cbn [q_k];
    [ exists (if neg then -(1/2) else 1/2), 0%nat | exists (if neg then -(1/2) else 1/2), 1%nat | exists (if neg then -(1/2) else 1/2), 2%nat
    | exists (if neg then -(1/2) else 1/2), 1%nat | exists (if neg then -(1/2) else 1/2), 2%nat | exists (if neg then -(1/2) else 1/2), 0%nat
    | exists (if neg then -(1/2) else 1/2), 2%nat | exists (if neg then -(1/2) else 1/2), 0%nat | exists (if neg then -(1/2) else 1/2), 1%nat ];
    eexists; (split; [destruct neg; auto|]); (split; [destruct neg; f3|split; [reflexivity|]]);
    destruct neg; apply vec_ext; vals. }
  destruct G as (s&d&q'&Hsv&->&Hq'&E). exists q'. split; auto. rewrite E.
  assert (Z0 : cong1 (2*s*0) 0) by (exists 0%Z; cbn; ring).
  assert (Z1 : cong1 (2*s*(1/2)) (1/2)). { destruct Hsv as [-> | ->]; [exists 0%Z|exists (-1)%Z]; cbn; lra. }
  destruct d as [|[|[|d]]]; cbn in Hq'; [| | |destruct d; discriminate]; injection Hq' as <-; (split; [|split]); cbn; first [exact Z0|exact Z1|rewrite Rmult_comm; exact Z0|rewrite Rmult_comm; exact Z1].
Qed.

Lemma find3_vals : find3 (kimage false zid (V (1/2) 0 0)) = Some 0%nat /\ find3 (kimage false cyc (V (1/2) 0 0)) = Some 1%nat /\
  find3 (kimage false zid (V 0 (1/2) 0)) = Some 1%nat /\ find3 (kimage false cyc (V 0 (1/2) 0)) = Some 2%nat /\
  find3 (kimage false zid (V 0 0 (1/2))) = Some 2%nat /\ find3 (kimage false cyc (V 0 0 (1/2))) = Some 0%nat.
Proof.
  repeat split; f3.
Qed.
Lemma hits_ext find sym qs d l (D : Z * bool * Z -> option nat) : Forall (fun t => dest find sym qs t = D t) l ->
  hits find sym qs d l = map packT (filter (fun t => match D t with Some j => Nat.eqb j d | None => false end) l).
Proof. intros H. unfold hits. f_equal. induction H as [|t l E _ IH]; cbn; auto. rewrite E, IH. reflexivity. Qed.
Definition D3 (t : Z * bool * Z) : option nat := let '(s,_,i) := t in Some (Z.to_nat ((s + i) mod 3)).
Lemma two_symmetries_double_count : exists red m,
  reduceKmesh find3 [zid; cyc] false mesh3 1 = Some (red,m) /\ total (map q_w red) = 4/3 /\ total (map q_w mesh3) = 1.
Proof.
  unfold reduceKmesh. rewrite kmap_all_eq by lia. destruct find3_vals as (F1&F2&F3&F4&F5&F6).
  change (seq 0 (length mesh3)) with [0;1;2]%nat.
  assert (T : kmap_trips [zid; cyc] false 0 (Z.of_nat (length mesh3)) =
     [(0,false,0);(0,false,1);(1,false,0);(1,false,1);(2,false,0);(2,false,1)]%Z) by reflexivity.
  rewrite T. set (l := [(0,false,0);(0,false,1);(1,false,0);(1,false,1);(2,false,0);(2,false,1)]%Z).
  assert (H : Forall (fun t => dest find3 [zid; cyc] mesh3 t = D3 t) l).
  { unfold l. repeat constructor; unfold dest, D3; [exact F1|exact F2|exact F3|exact F4|exact F5|exact F6]. }
  cbn [map]. rewrite !(hits_ext _ _ _ _ _ _ H).
  match goal with |- context [reduceKmesh_of _ ?k] => assert (K : k = [0; 1; 2^32 + 1]%Z) by (vm_compute; reflexivity) end. rewrite K.
  unfold reduceKmesh_of. 
  assert (B : forallb (fun e => (srcOf e <? Z.of_nat (length mesh3))%Z) [0; 1; 2^32 + 1]%Z = true) by reflexivity. rewrite B.
  cbv zeta. assert (S : sources mesh3 [0; 1; 2^32+1]%Z = [0;1]%Z) by reflexivity. rewrite S.
  eexists _, _. split; [reflexivity|]. split.
  - cbn [flat_map app]. change (nth_error mesh3 (Z.to_nat 0)) with (Some (QN (V (1/2) 0 0) 0 (1/3))).
    change (nth_error mesh3 (Z.to_nat 1)) with (Some (QN (V 0 (1/2) 0) 0 (1/3))). cbn [app map total]. unfold collect.
    assert (F0 : forall s, List.filter (fun je => (srcOf (snd je) =? s)%Z && negb (Z.of_nat (fst je) =? s)%Z)
            (combine (seq 0 (List.length [0; 1; 2^32+1]%Z)) [0; 1; 2^32+1]%Z) =
            if (s =? 0)%Z then [(1%nat,1%Z)] else if (s =? 1)%Z then [(2%nat,2^32+1)%Z] else []).
    { intros s. cbn [List.length seq combine filter fst snd]. change (srcOf 0) with 0%Z. change (srcOf 1) with 0%Z. change (srcOf (2^32+1)) with 1%Z.
      destruct (Z.eqb_spec s 0); [subst; reflexivity|]. destruct (Z.eqb_spec s 1); [subst; reflexivity|].
      replace (0 =? s)%Z with false by (symmetry; apply Z.eqb_neq; lia). replace (1 =? s)%Z with false by (symmetry; apply Z.eqb_neq; lia). reflexivity. }
    rewrite !F0. cbn. lra.
  - cbn. lra.
Qed.
