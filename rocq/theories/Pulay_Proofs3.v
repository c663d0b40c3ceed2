(** Restart files of Pulay mixing (C15), and repeated use of one object (C14). *)
From Coq Require Import Reals ZArith List Bool Arith Lia Lra.
From Verif Require Import XR_Model XR_Facts VecOps Converge_Model Pulay_Model Pulay_Spec Pulay_Proofs.
Import ListNotations.
Open Scope R_scope.

Section F.
Context {S V Byte : Type} (v : VectorOps V) (sys : Mixable S V) (ser : V -> list Byte) (deser : list Byte -> V) (sz : nat).
Hypothesis Hlen : forall x, length (ser x) = sz.
Hypothesis Hrt : forall x, deser (ser x) = x.
Hypothesis Hsz : (0 < sz)%nat.

Definition bytes (l : list (V * V)) : list Byte := concat (map (fun xr => ser (fst xr) ++ ser (snd xr)) l).
Lemma bytes_length l : length (bytes l) = (length l * (2 * sz))%nat.
Proof.
  induction l as [|(x,r) l IH]; [reflexivity|]. unfold bytes in *. cbn [map concat fst snd]. rewrite !app_length, IH, !Hlen. cbn [length]. lia.
Qed.
Lemma bytes_skip l : forall k, skipn (k * (2 * sz)) (bytes l) = bytes (skipn k l).
Proof.
  induction l as [|(x,r) l IH]; intros [|k].
  - reflexivity.
  - cbn [bytes map concat]. rewrite !skipn_nil. reflexivity.
  - reflexivity.
  - unfold bytes in *. cbn [map concat fst snd skipn]. rewrite <- IH.
    replace (Datatypes.S k * (2 * sz))%nat with (k * (2*sz) + length (ser x ++ ser r))%nat by (rewrite app_length, !Hlen; lia).
    generalize (ser x ++ ser r); intros p. generalize (k * (2*sz))%nat; intros q. rewrite skipn_app.
    replace (q + length p - length p)%nat with q by lia. rewrite skipn_all2 by lia. reflexivity.
Qed.
Lemma readPairs_bytes l t : readPairs deser sz (length l) (bytes l ++ t) = (map fst l, map snd l).
Proof.
  revert t. induction l as [|(x,r) l IH]; intros t; [reflexivity|]. cbn [length readPairs]. unfold bytes. cbn [map concat fst snd].
  rewrite <- !app_assoc.
  assert (F : forall y u, firstn sz (ser y ++ u) = ser y).
  { intros y u. rewrite firstn_app, Hlen, Nat.sub_diag, firstn_O, app_nil_r. rewrite firstn_all2; auto. rewrite Hlen. auto. }
  assert (G : forall y u, skipn sz (ser y ++ u) = u).
  { intros y u. rewrite skipn_app, Hlen, Nat.sub_diag. rewrite skipn_all2; [reflexivity|]. rewrite Hlen. auto. }
  rewrite !F, !G, ?F, ?G, !Hrt. change (concat (map (fun xr => ser (fst xr) ++ ser (snd xr)) l)) with (bytes l). rewrite IH. reflexivity.
Qed.

Lemma loadOverlaps_spec (Hsym : sym_metric v sys) rs : forall done ov, overlaps v (mx_metric sys) done ov ->
  overlaps v (mx_metric sys) (done ++ rs) (loadOverlaps v sys done rs ov).
Proof.
  induction rs as [|r rs IH]; intros done ov H; cbn [loadOverlaps]; [rewrite app_nil_r; auto|].
  replace (done ++ r :: rs) with ((done ++ [r]) ++ rs) by (rewrite <- app_assoc; reflexivity).
  apply IH. apply overlaps_add; auto.
Qed.

Lemma lastn_combine (xs rs : list V) h : length xs = length rs -> skipn (length (combine xs rs) - h) (combine xs rs) = combine (lastn h xs) (lastn h rs).
Proof.
  intros L. rewrite combine_length, <- L, Nat.min_id. unfold lastn. rewrite <- L. generalize (length xs - h)%nat; intros k. clear h.
  revert rs L k. induction xs as [|x xs IH]; intros [|r rs] L k; try discriminate.
  - rewrite skipn_nil. cbn. destruct k; reflexivity.
  - destruct k; [reflexivity|]. cbn [combine skipn]. apply IH. cbn in L. lia.
Qed.

Theorem load_save (Hsym : sym_metric v sys) pp o o2 : length (po_vars o) = length (po_res o) ->
  exists o', loadState v sys deser sz pp o2 (saveState ser o) = Some o' /\
    po_vars o' = lastn (pp_history pp) (po_vars o) /\ po_res o' = lastn (pp_history pp) (po_res o) /\
    overlaps v (mx_metric sys) (po_res o') (po_ov o').
Proof.
  intros L. unfold loadState, saveState. change (concat _) with (bytes (combine (po_vars o) (po_res o))).
  set (l := combine (po_vars o) (po_res o)). set (h := pp_history pp).
  destruct (Nat.eqb_spec (2 * sz) 0); [lia|]. rewrite bytes_length, Nat.div_mul, Nat.mod_mul by lia. cbn [Nat.eqb].
  assert (KEY : forall off n, off = (length l - h)%nat -> n = length (skipn off l) ->
    exists o', (let '(xs, rs) := readPairs deser sz n (skipn (off * (2 * sz)) (bytes l)) in Some (PO xs rs (loadOverlaps v sys [] rs (po_ov o2)))) = Some o' /\
    po_vars o' = lastn h (po_vars o) /\ po_res o' = lastn h (po_res o) /\ overlaps v (mx_metric sys) (po_res o') (po_ov o')).
  { intros off n' -> ->. rewrite bytes_skip. rewrite <- (app_nil_r (bytes _)). rewrite readPairs_bytes. eexists. split; [reflexivity|]. cbn [po_vars po_res po_ov].
    unfold l. rewrite lastn_combine by auto.
    assert (LL : length (lastn h (po_vars o)) = length (lastn h (po_res o))) by (unfold lastn; rewrite !skipn_length; lia).
    assert (MF : forall a b : list V, length a = length b -> map fst (combine a b) = a /\ map snd (combine a b) = b).
    { induction a as [|x a IHa]; intros [|y b] E; try discriminate; [auto|]. cbn. destruct (IHa b) as (->&->); auto. }
    destruct (MF _ _ LL) as (->&->). split; [reflexivity|]. split; [reflexivity|].
    change (lastn h (po_res o)) with ([] ++ lastn h (po_res o)) at 1. apply loadOverlaps_spec; auto. intros i j x y Hi. destruct i; discriminate. }
  destruct (Nat.ltb_spec h (length l)).
  - apply KEY; [reflexivity|]. rewrite skipn_length. lia.
  - apply KEY; [lia|]. reflexivity.
Qed.
Lemma load_bad pp o f : (length f mod (2 * sz))%nat <> O -> loadState v sys deser sz pp o f = None.
Proof.
  intros H. unfold loadState. destruct (Nat.eqb_spec (2 * sz) 0); auto. destruct (if Nat.ltb _ _ then _ else _) as (off&n').
  destruct (Nat.eqb_spec (length f mod (2 * sz)) 0); [contradiction|auto].
Qed.
End F.

(** *** Second call on the same object *)
Definition ops1 : VectorOps R := VO Rplus Rmult 0 Rmult.
Lemma ops1_laws : vector_laws ops1.
Proof. constructor; cbn; intros; ring. Qed.
(** a drifting system: each cycle adds 1/10; constant energy *)
Definition drift : Mixable R R := MX (fun s => s) (fun y _ => y) (fun _ s => (s + 1/10, Fin 0, [])) (fun x => x) (fun _ => 0) (fun _ s => s).
Lemma drift_metric : metric_ok ops1 (mx_metric drift). Proof. split; [|split]; cbn; intros; ring. Qed.
Lemma drift_stores : stores drift. Proof. intros y s. reflexivity. Qed.
Definition empty_obj (ov : Mat) : PulayObj R := PO [] [] ov.

Definition drift_pp2 := PP 2 (Fin 0) (Fin 1) 4.
Definition ec0 := fst (ediffCheck (mkEdiffCheck 2 (Fin 0)) (Fin 0)).
Lemma ec0_step : ediffCheck ec0 (Fin 0) = (ec0, false).
Proof.
  unfold ec0, mkEdiffCheck. cbn [ediffCheck ed_q rev fst ed_n ed_thr app].
  assert (E : xleb (Fin 0) (Fin 0) = true) by (apply xleb_fin; lra). rewrite E. reflexivity.
Qed.
Lemma small : xltb (xabs (Fin (1/10))) (xabs (Fin 1)) = true.
Proof. unfold xabs. apply xltb_fin. rewrite !Rabs_right by lra. lra. Qed.
Definition dres s : R := s + 1/10 + -1 * s.
Lemma dres_norm s : sqrt (dres s * dres s) = 1/10.
Proof. replace (dres s * dres s) with ((1/10)*(1/10)) by (unfold dres; ring). apply sqrt_square. lra. Qed.
(** first iteration of a call: mixes *)
Lemma drift_mixes inv k o s E dE tr : (length (po_res o) < 4)%nat ->
  let ress := po_res o ++ [dres s] in let n := length ress in
  let ov := setOverlaps ops1 (dres s) (n-1) 0 ress (po_ov o) in let al := alphas inv n ov in
  let y := mixed ops1 drift al (po_vars o ++ [s]) ress in let o3 := PO (po_vars o ++ [s]) ress ov in
  pulayLoop ops1 drift inv (fun _ => false) drift_pp2 (S k) 0 o s E dE ec0 (mkNormCheck 2 (Fin 1)) [] tr =
  pulayLoop ops1 drift inv (fun _ => false) drift_pp2 k 1 o3 y (Fin 0) (xsub (Fin 0) E) ec0 (NC [true] 2 (xabs (Fin 1))) [] (tr ++ [mkMix o3 al y]).
Proof.
  intros Hl ress n ov al y o3. cbn [pulayLoop]. unfold dropOldest. change (pp_history drift_pp2) with 4%nat.
  destruct (Nat.leb_spec 4 (length (po_res o))); [lia|]. change (mx_cycle drift dE s) with (s + 1/10, Fin 0, @nil xr). cbv iota beta.
  cbn [isnan]. rewrite ec0_step. cbv iota.
  change (v_add ops1 (mx_get drift (s + 1 / 10)) (v_scal ops1 (-1) (mx_get drift s))) with (dres s).
  change (v_dot ops1 (dres s) (dres s)) with (dres s * dres s). rewrite dres_norm.
  assert (N : normCheck (mkNormCheck 2 (Fin 1)) (Fin (1/10)) = (NC [true] 2 (xabs (Fin 1)), false)).
  { unfold normCheck, mkNormCheck. cbn [nc_h nc_n nc_thr app length Nat.add Nat.eqb]. rewrite small. reflexivity. }
  rewrite N. cbv iota. cbn [extraChecks orb]. reflexivity.
Qed.
(** second iteration: converged *)
Lemma drift_stops inv k o s E dE tr : (length (po_res o) < 4)%nat ->
  pulayLoop ops1 drift inv (fun _ => false) drift_pp2 (S k) 1 o s E dE ec0 (NC [true] 2 (xabs (Fin 1))) [] tr =
  mkPO (PO (po_vars o ++ [s]) (po_res o ++ [dres s]) (po_ov o)) (s + 1/10) (Fin 0) Stopped tr.
Proof.
  intros Hl. cbn [pulayLoop]. unfold dropOldest. change (pp_history drift_pp2) with 4%nat.
  destruct (Nat.leb_spec 4 (length (po_res o))); [lia|]. change (mx_cycle drift dE s) with (s + 1/10, Fin 0, @nil xr). cbv iota beta.
  cbn [isnan]. rewrite ec0_step. cbv iota.
  change (v_add ops1 (mx_get drift (s + 1 / 10)) (v_scal ops1 (-1) (mx_get drift s))) with (dres s).
  change (v_dot ops1 (dres s) (dres s)) with (dres s * dres s). rewrite dres_norm.
  assert (N : normCheck (NC [true] 2 (xabs (Fin 1))) (Fin (1/10)) = (NC [true; true] 2 (xabs (Fin 1)), true)).
  { unfold normCheck. cbn [nc_h nc_n nc_thr app length Nat.add Nat.eqb]. rewrite small. reflexivity. }
  rewrite N. cbv iota. reflexivity.
Qed.
Lemma recall_refuted inv : exists o1 : PulayObj R, let call o s := pulayMinimize ops1 drift inv (fun _ => false) drift_pp2 o s (Fin 0) [] in
  let first := call (PO [] [] (fun _ _ => 0)) 0 in
  out_end first = Stopped /\ out_obj first = o1 /\ exists m r, In m (out_trace (call o1 (out_sys first))) /\ nth_error (po_res (mi_obj m)) 1 = Some r /\ r * r = 1/100 /\ po_ov (mi_obj m) 1%nat 1%nat = 0.
Proof.
  eexists. cbv zeta. unfold pulayMinimize. change (Z.to_nat (pp_nIter drift_pp2)) with 2%nat. change (map _ []) with (@nil NormCheck).
  change (fst (ediffCheck (mkEdiffCheck 2 (pp_ediffThr drift_pp2)) (Fin 0))) with ec0. change (pp_resThr drift_pp2) with (Fin 1).
  rewrite drift_mixes by (cbn; lia). rewrite drift_stops by (cbn; lia). cbn [out_end out_obj out_sys].
  split; [reflexivity|]. split; [reflexivity|]. 
  match goal with |- context[dres ?q] => match q with mixed _ _ _ _ _ => generalize q; intros y end end.
  cbn [app po_res po_vars po_ov length setOverlaps Nat.sub Nat.add].
  rewrite drift_mixes by (cbn; lia). rewrite drift_stops by (cbn; lia). cbn [out_trace app].
  eexists. exists (dres y). split; [left; reflexivity|]. cbn [mi_obj po_res po_ov app nth_error]. split; [reflexivity|].
  split; [unfold dres; lra|].
  rewrite setOverlaps_other by (cbn; lia). cbn. unfold mset. cbn. reflexivity.
Qed.

(** A first call from an empty history, whatever the overlap matrix holds *)
Lemma example_run inv ov0 : let out := pulayMinimize ops1 drift inv (fun _ => false) drift_pp2 (PO [] [] ov0) 0 (Fin 0) [] in
  exists m, out_trace out = [m] /\ po_ov (mi_obj m) 0%nat 0%nat = 1/100 /\ out_end out = Stopped /\ length (po_res (out_obj out)) = 2%nat.
Proof.
  cbv zeta. unfold pulayMinimize. change (Z.to_nat (pp_nIter drift_pp2)) with 2%nat. change (map _ []) with (@nil NormCheck).
  change (fst (ediffCheck (mkEdiffCheck 2 (pp_ediffThr drift_pp2)) (Fin 0))) with ec0. change (pp_resThr drift_pp2) with (Fin 1).
  rewrite drift_mixes by (cbn; lia). rewrite drift_stops by (cbn; lia). eexists. split; [reflexivity|]. split; [|split; reflexivity].
  cbn [mi_obj po_ov po_res app length Nat.sub setOverlaps]. unfold mset. cbn. unfold dres. lra.
Qed.

(** Inverse of a bordered 1x1 overlap *)
Definition inv2 : nat -> Mat -> Mat := fun _ m i j => match i, j with 0%nat, 0%nat => 0 | 1%nat, 1%nat => - m 0%nat 0%nat | _, _ => 1 end.
Lemma inv2_inverse ov : right_inverse 2 (bordered 1 ov) (inv2 2 (bordered 1 ov)) /\ right_inverse 2 (inv2 2 (bordered 1 ov)) (bordered 1 ov).
Proof.
  split; intros i j Hi Hj; destruct i as [|[|]]; try lia; destruct j as [|[|]]; try lia; unfold sum_to, bordered; cbn; ring.
Qed.
