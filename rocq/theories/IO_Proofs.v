(** Lemmas for binary transfers. *)
From Coq Require Import ZArith List Lia Bool.
From Verif Require Import Base IO_Model IO_Spec.
Import ListNotations.
Open Scope Z_scope.

(** Mirror image of an offset inside its chunk of width c, if the host is big endian. *)
Definition mirror (little : bool) (c k : Z) : Z := if little then k else (k / c) * c + (c - 1 - k mod c).

Lemma fold_zrange_snoc {A} (f : A -> Z -> A) n x : 0 <= n -> fold_left f (zrange 0 (n+1)) x = f (fold_left f (zrange 0 n) x) n.
Proof. intros. rewrite zrange_snoc by lia. replace (n+1-1) with n by lia. rewrite fold_left_app. reflexivity. Qed.

Lemma swap_chunk_prefix c m b t : 0 <= t <= c/2 -> forall a,
  fold_left (fun m iByte => swap_bytes m (b + iByte) (b + (c - 1 - iByte))) (zrange 0 t) m a =
  (if ((b <=? a) && (a <? b+t)) || ((b+c-t <=? a) && (a <? b+c)) then m (b + (c-1-(a-b))) else m a).
Proof.
  intros Ht. assert (H : exists n, t = Z.of_nat n) by (exists (Z.to_nat t); lia). destruct H as [n ->].
  induction n as [|n IH]; intros a.
  - rewrite zrange_nil by lia. cbn [fold_left].
    destruct (Z.leb_spec b a), (Z.ltb_spec a (b+Z.of_nat 0)), (Z.leb_spec (b+c-Z.of_nat 0) a), (Z.ltb_spec a (b+c)); cbn; auto; lia.
  - replace (Z.of_nat (S n)) with (Z.of_nat n + 1) by lia. rewrite fold_zrange_snoc by lia. unfold swap_bytes at 1.
    rewrite !IH by lia.
    destruct (Z.eqb_spec a (b + Z.of_nat n)) as [->|N1]; [|destruct (Z.eqb_spec a (b + (c-1-Z.of_nat n))) as [->|N2]].
    + replace ((b <=? b + Z.of_nat n) && (b + Z.of_nat n <? b + (Z.of_nat n + 1))) with true
        by (symmetry; apply andb_true_iff; rewrite Z.leb_le, Z.ltb_lt; lia). cbn [orb].
      replace (b + (c-1-Z.of_nat n) <? b + Z.of_nat n) with false by (symmetry; apply Z.ltb_ge; lia).
      replace (b + c - Z.of_nat n <=? b + (c-1-Z.of_nat n)) with false by (symmetry; apply Z.leb_gt; lia).
      rewrite !andb_false_r. cbn [orb andb]. f_equal. lia.
    + replace (b + c - (Z.of_nat n + 1) <=? b + (c-1-Z.of_nat n)) with true by (symmetry; apply Z.leb_le; lia).
      replace (b + (c-1-Z.of_nat n) <? b + c) with true by (symmetry; apply Z.ltb_lt; lia).
      cbn [andb]. rewrite orb_true_r.
      replace (b + Z.of_nat n <? b + Z.of_nat n) with false by (symmetry; apply Z.ltb_ge; lia).
      replace (b + c - Z.of_nat n <=? b + Z.of_nat n) with false by (symmetry; apply Z.leb_gt; lia).
      rewrite andb_false_r. cbn [orb andb]. f_equal. lia.
    + destruct (Z.leb_spec b a), (Z.ltb_spec a (b+Z.of_nat n)), (Z.leb_spec (b+c-Z.of_nat n) a), (Z.ltb_spec a (b+c)),
        (Z.ltb_spec a (b+(Z.of_nat n+1))), (Z.leb_spec (b+c-(Z.of_nat n+1)) a); cbn; auto; lia.
Qed.

Lemma swap_chunk_spec c m b : 0 < c -> forall a,
  swap_chunk c m b a = if (b <=? a) && (a <? b+c) then m (b + (c-1-(a-b))) else m a.
Proof.
  intros Hc a. unfold swap_chunk. rewrite swap_chunk_prefix by lia.
  destruct (Z.leb_spec b a), (Z.ltb_spec a (b+c/2)), (Z.leb_spec (b+c-c/2) a), (Z.ltb_spec a (b+c)); cbn; auto; try lia.
  f_equal. lia.
Qed.

Lemma swap_chunks_spec c n m p : 0 < c -> 0 <= n -> forall a,
  swap_chunks c n m p a = if (p <=? a) && (a <? p+n*c) then m (p + mirror false c (a-p)) else m a.
Proof.
  intros Hc Hn. unfold swap_chunks. assert (H : exists k, n = Z.of_nat k) by (exists (Z.to_nat n); lia). destruct H as [k ->]. clear Hn.
  induction k as [|k IH]; intros a.
  - rewrite zrange_nil by lia. cbn [fold_left]. destruct (Z.leb_spec p a), (Z.ltb_spec a (p+Z.of_nat 0*c)); cbn; auto; lia.
  - replace (Z.of_nat (S k)) with (Z.of_nat k + 1) by lia. rewrite fold_zrange_snoc by lia.
    rewrite swap_chunk_spec by auto. rewrite !IH. set (n := Z.of_nat k) in *. assert (0 <= n) by lia.
    assert (Hnc : 0 <= n*c) by nia.
    replace ((n+1)*c) with (n*c+c) by ring.
    destruct (Z.leb_spec (p+n*c) a), (Z.ltb_spec a (p+n*c+c)); cbn [andb].
    + destruct (Z.ltb_spec (p + n * c + (c - 1 - (a - (p + n * c)))) (p+n*c)); [lia|]. rewrite andb_false_r.
      destruct (Z.leb_spec p a); [|lia]. destruct (Z.ltb_spec a (p+(n*c+c))); [|lia]. cbn [andb]. f_equal. unfold mirror.
      assert (E : (a-p)/c = n) by (symmetry; apply Z.div_unique with (a-p-n*c); lia).
      assert (E' : (a-p) mod c = a-p-n*c) by (rewrite Z.mod_eq by lia; rewrite E; lia).
      rewrite E, E'. lia.
    + destruct (Z.ltb_spec a (p+n*c)); [lia|]. destruct (Z.ltb_spec a (p+(n*c+c))); [lia|]. now rewrite !andb_false_r.
    + destruct (Z.ltb_spec a (p+n*c)); [|lia]. destruct (Z.ltb_spec a (p+(n*c+c))); [|lia]. reflexivity.
    + lia.
Qed.

Lemma mirror_range c k : 0 < c -> let q := mirror false c k in (k/c)*c <= q < (k/c)*c + c.
Proof. intros Hc. unfold mirror. cbn zeta. pose proof (Z.mod_pos_bound k c Hc). lia. Qed.
Lemma mirror_invol c k : 0 < c -> mirror false c (mirror false c k) = k.
Proof.
  intros Hc. unfold mirror. pose proof (Z.mod_pos_bound k c Hc).
  assert (E : ((k/c)*c + (c-1-k mod c)) / c = k/c) by (symmetry; apply Z.div_unique with (c-1-k mod c); lia).
  assert (E' : ((k/c)*c + (c-1-k mod c)) mod c = c-1-k mod c) by (rewrite Z.mod_eq by lia; rewrite E; lia).
  rewrite E, E'. pose proof (Z.div_mod k c ltac:(lia)). lia.
Qed.
Lemma mirror_shift l c q k : 0 < c -> mirror l c (k + q*c) = mirror l c k + q*c.
Proof.
  intros Hc. destruct l; [reflexivity|]. unfold mirror. rewrite Z.div_add, Z_mod_plus_full by lia. lia.
Qed.
Lemma mirror_in l c n k : 0 < c -> 0 <= k < n*c -> 0 <= mirror l c k < n*c.
Proof.
  intros Hc Hk. destruct l; [exact Hk|]. pose proof (mirror_range c k Hc) as M. cbn zeta in M.
  assert (0 <= k/c) by (apply Z.div_pos; lia). assert (k/c < n) by (apply Z.div_lt_upper_bound; lia).
  assert (k/c*c + c <= n*c) by nia. nia.
Qed.
Lemma mirror_1 l k : mirror l 1 k = k.
Proof. destruct l; [reflexivity|]. unfold mirror. rewrite Z.mod_1_r, Z.div_1_r. lia. Qed.
Lemma mirror_mirror l c k : 0 < c -> mirror l c (mirror l c k) = k.
Proof. intros. destruct l; [reflexivity|]. apply mirror_invol; auto. Qed.

(** number_width is the chunk width used by the code *)
Lemma width_pos size w : number_width size = Some w -> 0 < w /\ (w | size) /\ 0 < size.
Proof.
  unfold number_width. destruct (Z.eqb_spec size 1) as [->|]. { intros [= <-]. split; [lia|split;[apply Z.divide_1_l|lia]]. }
  destruct (Z.eqb_spec size 2) as [->|]. { intros [= <-]. split; [lia|split;[apply Z.divide_refl|lia]]. }
  destruct (Z.eqb_spec size 4) as [->|]. { intros [= <-]. split; [lia|split;[apply Z.divide_refl|lia]]. }
  destruct (Z.ltb_spec 0 size); [|discriminate]. cbn [andb]. destruct (Z.eqb_spec (size mod 8) 0); [|discriminate].
  intros [= <-]. split; [lia|]. split; [apply Z.mod_divide; lia|lia].
Qed.

Lemma convert_spec little m p size n w : number_width size = Some w -> 0 <= n ->
  exists m', convertToLE little m p size n = Some m' /\
   forall a, m' a = if (p <=? a) && (a <? p+n*size) then m (p + mirror little w (a-p)) else m a.
Proof.
  intros Hw Hn. unfold convertToLE. destruct little; cbn [orb].
  { eexists; split; [reflexivity|]. intros a. destruct (_ && _); [|reflexivity]. cbn [mirror]. f_equal. lia. }
  pose proof (width_pos _ _ Hw) as (Pw&_&Ps).
  unfold number_width in Hw. destruct (Z.eqb_spec size 1) as [->|N1].
  { injection Hw as <-. eexists; split; [reflexivity|]. intros a. destruct (_ && _); [|reflexivity]. rewrite mirror_1. f_equal. lia. }
  assert (C : exists k, chunking size n = Some (w,k) /\ 0 <= k /\ k*w = n*size).
  { unfold chunking. destruct (Z.eqb_spec size 2) as [->|N2].
    { injection Hw as <-. exists n. cbn [orb]. split; [reflexivity|]. lia. }
    destruct (Z.eqb_spec size 4) as [->|N4].
    { injection Hw as <-. exists n. cbn [orb]. split; [reflexivity|]. lia. }
    destruct (Z.ltb_spec 0 size); [|discriminate]. cbn [andb] in Hw. destruct (Z.eqb_spec (size mod 8) 0) as [E|]; [|discriminate].
    injection Hw as <-. destruct (Z.eqb_spec size 8) as [->|N8]; cbn [orb].
    { exists n. split; [reflexivity|]. lia. }
    exists (n*(size/8)). split; [reflexivity|].
    assert (size = 8*(size/8)) by (apply Z_div_exact_full_2; lia). assert (0 <= size/8) by lia. split; [nia|].
    rewrite <- Z.mul_assoc. f_equal. lia. }
  destruct C as (k&E&Hk&Ek). rewrite E. eexists; split; [reflexivity|]. intros a. rewrite swap_chunks_spec by auto. now rewrite Ek.
Qed.

(** Reading a number on a big endian host is reading the mirrored bytes on a little endian one. *)
Lemma le_number_ext g g' b b' n : (forall i, 0 <= i < Z.of_nat n -> g (b+i) = g' (b'+i)) -> le_number g b n = le_number g' b' n.
Proof.
  revert b b'. induction n as [|n IH]; intros b b' H; cbn [le_number]; [reflexivity|].
  rewrite (IH (b+1) (b'+1)). { specialize (H 0 ltac:(lia)). rewrite !Z.add_0_r in H. now rewrite H. }
  intros i Hi. specialize (H (i+1) ltac:(lia)). replace (b+1+i) with (b+(i+1)) by lia. replace (b'+1+i) with (b'+(i+1)) by lia. auto.
Qed.
Lemma be_number_ext g g' b b' n : (forall i, 0 <= i < Z.of_nat n -> g (b+i) = g' (b'+i)) -> be_number g b n = be_number g' b' n.
Proof.
  revert b b'. induction n as [|n IH]; intros b b' H; cbn [be_number]; [reflexivity|].
  rewrite (IH (b+1) (b'+1)). { specialize (H 0 ltac:(lia)). rewrite !Z.add_0_r in H. now rewrite H. }
  intros i Hi. specialize (H (i+1) ltac:(lia)). replace (b+1+i) with (b+(i+1)) by lia. replace (b'+1+i) with (b'+(i+1)) by lia. auto.
Qed.
Lemma le_number_snoc g b n : le_number g b (S n) = le_number g b n + g (b + Z.of_nat n) * 256^(Z.of_nat n).
Proof.
  revert b. induction n as [|n IH]; intros b.
  - cbn [le_number]. change (Z.of_nat 0) with 0. rewrite Z.pow_0_r. replace (b+0) with b by lia. ring.
  - change (le_number g b (S (S n))) with (g b + 256 * le_number g (b+1) (S n)). rewrite IH.
    change (le_number g b (S n)) with (g b + 256 * le_number g (b+1) n).
    replace (b + 1 + Z.of_nat n) with (b + Z.of_nat (S n)) by lia.
    replace (256 ^ Z.of_nat (S n)) with (256 * 256 ^ Z.of_nat n); [ring|].
    rewrite <- Z.pow_succ_r by lia. f_equal. lia.
Qed.
Lemma be_as_le g b n : be_number g b n = le_number (fun i => g (b + (Z.of_nat n - 1 - i))) 0 n.
Proof.
  revert b. induction n as [|n IH]; intros b; [reflexivity|]. rewrite le_number_snoc. cbn [be_number]. rewrite IH.
  rewrite Z.add_comm. f_equal.
  - apply le_number_ext. intros i Hi. f_equal. lia.
  - f_equal. f_equal. lia.
Qed.
Lemma host_number_mirror little g b w q : 0 < w ->
  host_number little g (b + q*w) (Z.to_nat w) = le_number (fun k => g (b + mirror little w k)) (q*w) (Z.to_nat w).
Proof.
  intros Hw. destruct little; cbn [host_number].
  - apply le_number_ext. intros. cbn. f_equal. lia.
  - rewrite be_as_le. apply le_number_ext. intros i Hi. rewrite Z2Nat.id in * by lia.
    replace (q*w+i) with (i+q*w) by lia. rewrite mirror_shift by lia. unfold mirror.
    rewrite (Z.div_small i), (Z.mod_small i) by lia. f_equal. lia.
Qed.
