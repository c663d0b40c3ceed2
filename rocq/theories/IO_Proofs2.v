(** Lemmas for blockwise transfers. *)
From Coq Require Import ZArith List Lia Bool.
From Verif Require Import Base IO_Model IO_Spec IO_Proofs.
Import ListNotations.
Open Scope Z_scope.

Definition inb (p n a : Z) : bool := (p <=? a) && (a <? p+n).
Lemma inb_spec p n a : reflect (p <= a < p+n) (inb p n a).
Proof. apply iff_reflect. unfold inb. rewrite andb_true_iff, Z.leb_le, Z.ltb_lt. tauto. Qed.

(** Byte level effect of writes and reads. *)
Definition bwritten (l : bool) (w ptr n : Z) (m m' : mem) (f f' : file) : Prop :=
  (forall a, m' a = m a) /\
  (forall o, content f' o = if inb (fpos f) n o then m (ptr + mirror l w (o - fpos f)) else content f o) /\
  fpos f' = fpos f + n /\ flen f' = Z.max (flen f) (fpos f + n).
Definition bread (l : bool) (w ptr n : Z) (m m' : mem) (f f' : file) : Prop :=
  (forall a, m' a = if inb ptr n a then content f (fpos f + mirror l w (a - ptr)) else m a) /\
  (forall o, content f' o = content f o) /\ fpos f' = fpos f + n /\ flen f' = flen f.

Lemma bwritten_spec l w ptr n m m' f f' : 0 < w -> bwritten l w ptr n m m' f f' -> written l w ptr n m m' f f'.
Proof.
  intros Hw (A&B&C&D). split; [exact A|]. split; [|split; [|split; [exact C|exact D]]].
  - intros q Hq Hn. rewrite host_number_mirror by lia. apply le_number_ext. intros i Hi. rewrite Z2Nat.id in Hi by lia. rewrite B.
    destruct (inb_spec (fpos f) n (fpos f + q*w + i)) as [_|N]; [f_equal; f_equal; f_equal; lia|]. exfalso. apply N. nia.
  - intros o Ho. rewrite B. destruct (inb_spec (fpos f) n o); [contradiction|reflexivity].
Qed.
Lemma bread_spec l w ptr n m m' f f' : 0 < w -> bread l w ptr n m m' f f' -> read_back l w ptr n m m' f f'.
Proof.
  intros Hw (A&B&C&D). split; [|split; [|split; [exact B|split; [exact C|exact D]]]].
  - intros q Hq Hn. rewrite host_number_mirror by lia. apply le_number_ext. intros i Hi. rewrite Z2Nat.id in Hi by lia. rewrite A.
    assert (R : q*w <= mirror l w (q*w+i) < q*w+w).
    { replace (q*w+i) with (i+q*w) by lia. rewrite mirror_shift by lia. pose proof (mirror_in l w 1 i Hw). lia. }
    destruct (inb_spec ptr n (ptr + mirror l w (q*w+i))) as [_|N].
    + f_equal. replace (ptr + mirror l w (q*w+i) - ptr) with (mirror l w (q*w+i)) by lia. rewrite mirror_mirror by auto. lia.
    + exfalso. apply N. nia.
  - intros a Ha. rewrite A. destruct (inb_spec ptr n a); [contradiction|reflexivity].
Qed.

(** One conversion + raw transfer *)
Lemma write_once l m f p size n w : number_width size = Some w -> 0 <= n ->
  exists m1, convertToLE l m p size n = Some m1 /\ exists m2, convertFromLE l m1 p size n = Some m2 /\
    bwritten l w p (n*size) m m2 f (raw_write f m1 p (n*size)).
Proof.
  intros Hw Hn. destruct (width_pos _ _ Hw) as (Pw&[d Dw]&Ps).
  destruct (convert_spec l m p size n w Hw Hn) as (m1&E1&H1). exists m1. split; [exact E1|].
  destruct (convert_spec l m1 p size n w Hw Hn) as (m2&E2&H2). exists m2. split; [exact E2|].
  assert (Nw : n*size = (n*d)*w) by (rewrite Dw; ring).
  split; [|split; [|split; reflexivity]].
  - intros a. rewrite H2. fold (inb p (n*size) a). destruct (inb_spec p (n*size) a) as [I|I].
    + rewrite H1. fold (inb p (n*size) (p + mirror l w (a-p))).
      pose proof (mirror_in l w (n*d) (a-p) Pw ltac:(lia)) as R.
      destruct (inb_spec p (n*size) (p + mirror l w (a-p))) as [_|N]; [|lia].
      f_equal. replace (p + mirror l w (a-p) - p) with (mirror l w (a-p)) by lia. rewrite mirror_mirror by auto. lia.
    + rewrite H1. fold (inb p (n*size) a). destruct (inb_spec p (n*size) a); [contradiction|reflexivity].
  - intros o. cbn [content raw_write]. fold (inb (fpos f) (n*size) o). destruct (inb_spec (fpos f) (n*size) o) as [I|I]; [|reflexivity].
    rewrite H1. fold (inb p (n*size) (p + (o - fpos f))).
    destruct (inb_spec p (n*size) (p + (o - fpos f))) as [_|N]; [|lia]. f_equal. f_equal. f_equal. lia.
Qed.

Lemma read_once l m f p size n w : number_width size = Some w -> 0 <= n -> 0 <= fpos f -> fpos f + n*size <= flen f ->
  exists m1 f1, raw_read f m p (n*size) = (m1, f1, n*size) /\ exists m2, convertFromLE l m1 p size n = Some m2 /\
    bread l w p (n*size) m m2 f f1.
Proof.
  intros Hw Hn Hp Hl. destruct (width_pos _ _ Hw) as (Pw&[d Dw]&Ps).
  assert (0 <= n*size) by nia. assert (Nw : n*size = (n*d)*w) by (rewrite Dw; ring).
  unfold raw_read. replace (Z.max 0 (Z.min (n*size) (flen f - fpos f))) with (n*size) by lia.
  eexists. eexists. split; [reflexivity|].
  match goal with |- exists m2, convertFromLE _ ?x _ _ _ = _ /\ _ => set (m1 := x) end. destruct (convert_spec l m1 p size n w Hw Hn) as (m2&E2&H2). exists m2. split; [exact E2|].
  split; [|split; [reflexivity|split; reflexivity]].
  intros a. rewrite H2. fold (inb p (n*size) a). destruct (inb_spec p (n*size) a) as [I|I].
  - subst m1. cbv beta. fold (inb p (n*size) (p + mirror l w (a-p))).
    pose proof (mirror_in l w (n*d) (a-p) Pw ltac:(lia)) as R.
    destruct (inb_spec p (n*size) (p + mirror l w (a-p))) as [_|N]; [|lia]. f_equal. lia.
  - subst m1. cbv beta. fold (inb p (n*size) a). destruct (inb_spec p (n*size) a); [contradiction|reflexivity].
Qed.

(** Block arithmetic: nothing wraps. *)
Section Blocks.
Variables size nmemb : Z.
Hypothesis Hsize : 1 <= size <= INT_MAX / 2.
Hypothesis Hn : 0 <= nmemb.
Hypothesis Htot : nmemb * size <= 2^63.

Let bs := blockSize size.
Definition donen (i : Z) : Z := Z.min nmemb (i*bs).

Lemma IM : INT_MAX/2 = 1073741823. Proof. reflexivity. Qed.
Lemma P63 : 2^63 = 9223372036854775808. Proof. reflexivity. Qed.
Lemma P64 : 2^64 = 18446744073709551616. Proof. reflexivity. Qed.
Lemma u64_id x : 0 <= x < 2^64 -> u64 x = x.
Proof. intros. unfold u64. apply Z.mod_small; auto. Qed.

Lemma bs_eq : bs = INT_MAX / (2*size).
Proof. unfold bs, blockSize. rewrite u64_id; [reflexivity|]. rewrite IM in Hsize. rewrite P64. lia. Qed.
Lemma bs_bounds : 1 <= bs /\ bs * size <= INT_MAX / 2 /\ bs <= INT_MAX.
Proof.
  rewrite bs_eq. rewrite IM in *. unfold INT_MAX.
  assert (1 <= 2147483647 / (2*size)) by (apply Z.div_le_lower_bound; lia).
  assert (2*size * (2147483647/(2*size)) <= 2147483647) by (apply Z.mul_div_le; lia).
  split; [lia|]. split; nia.
Qed.
Lemma nmemb_small : nmemb <= 2^63. Proof. nia. Qed.
Lemma nBlocks_eq : ceildiv_u64 nmemb bs = (nmemb + bs - 1) / bs.
Proof.
  pose proof bs_bounds. pose proof nmemb_small. unfold ceildiv_u64. rewrite u64_id; [reflexivity|].
  rewrite P64, P63 in *. unfold INT_MAX in *. lia.
Qed.
Lemma nBlocks_cover : nmemb <= ((nmemb + bs - 1) / bs) * bs /\ 0 <= (nmemb + bs - 1) / bs.
Proof.
  pose proof bs_bounds. pose proof (Z.div_mod (nmemb+bs-1) bs ltac:(lia)). pose proof (Z.mod_pos_bound (nmemb+bs-1) bs ltac:(lia)).
  split; [lia|]. apply Z.div_pos; lia.
Qed.
Lemma block_in i : 0 <= i < (nmemb + bs - 1) / bs -> i*bs < nmemb.
Proof.
  intros Hi. pose proof bs_bounds. assert (bs * ((nmemb+bs-1)/bs) <= nmemb+bs-1) by (apply Z.mul_div_le; lia). nia.
Qed.
Lemma block_off_eq i : 0 <= i < (nmemb + bs - 1) / bs -> block_offset bs i = i*bs /\ donen i = i*bs.
Proof.
  intros Hi. pose proof (block_in i Hi). pose proof bs_bounds. pose proof nmemb_small. split.
  - unfold block_offset. apply u64_id. rewrite P64, P63 in *. nia.
  - unfold donen. lia.
Qed.
Lemma block_len_eq i : 0 <= i < (nmemb + bs - 1) / bs ->
  block_length bs nmemb i = donen (i+1) - donen i /\ 0 < donen (i+1) - donen i <= bs.
Proof.
  intros Hi. pose proof (block_in i Hi). pose proof bs_bounds as B. pose proof nmemb_small as NS.
  destruct (block_off_eq i Hi) as [E1 E2]. unfold block_length. rewrite E1, E2. unfold donen.
  assert (U : u64 ((i+1)*bs) = (i+1)*bs). { apply u64_id. rewrite P64, P63 in *. unfold INT_MAX in *. nia. }
  rewrite U. assert (i*bs < Z.min nmemb ((i+1)*bs) <= i*bs+bs) by nia. split; [|lia].
  apply u64_id. rewrite P64. unfold INT_MAX in *. lia.
Qed.

Variable w : Z.
Hypothesis Hw : number_width size = Some w.

Definition counts_ok (i : Z) (c : list Z) := Forall (fun x => 0 < x <= INT_MAX) c /\ fold_right Z.add 0 c = donen i * size.
Lemma counts_step i c len : counts_ok i c -> len = donen (i+1) - donen i -> 0 < len <= bs -> counts_ok (i+1) (c ++ [len*size]).
Proof.
  intros [F E] El Hl. pose proof bs_bounds as B. rewrite IM in *. split.
  - apply Forall_app. split; [exact F|]. constructor; [|constructor]. unfold INT_MAX. nia.
  - rewrite fold_right_app. cbn [fold_right].
    assert (S : forall l x, fold_right Z.add x l = fold_right Z.add 0 l + x).
    { induction l as [|y l IHl]; intros x; cbn [fold_right]; [lia|]. rewrite IHl. lia. }
    rewrite S, E. rewrite El. lia.
Qed.

Lemma wdiv : exists d, size = d*w /\ 0 < w.
Proof. destruct (width_pos _ _ Hw) as (Pw&[d Dw]&_). exists d. auto. Qed.

Lemma donen_0 : donen 0 = 0. Proof. unfold donen. pose proof bs_bounds. lia. Qed.
Lemma donen_mono i : 0 <= i -> 0 <= donen i <= donen (i+1).
Proof. intros. unfold donen. pose proof bs_bounds. nia. Qed.

Lemma fwrite_blocks l ptr s0 k : Z.of_nat k <= (nmemb+bs-1)/bs -> counts s0 = [] -> fpos (ff s0) <= flen (ff s0) ->
  exists s, fold_left (fwrite_block l ptr size nmemb bs) (zrange 0 (Z.of_nat k)) (Some s0) = Some s /\
    bwritten l w ptr (donen (Z.of_nat k) * size) (mm s0) (mm s) (ff s0) (ff s) /\ counts_ok (Z.of_nat k) (counts s).
Proof.
  intros Hk Hc Hlen. pose proof bs_bounds as B. destruct wdiv as (d&Dw&Pw). induction k as [|k IH].
  - rewrite zrange_nil by lia. exists s0. split; [reflexivity|].
    change (Z.of_nat 0) with 0. rewrite donen_0.
    split; [split; [reflexivity|split; [|split; lia]]|].
    + intros o. destruct (inb_spec (fpos (ff s0)) (0*size) o); [lia|reflexivity].
    + rewrite Hc. split; [constructor|cbn [fold_right]; rewrite donen_0; lia].
  - destruct IH as (s&E&(Wm&Wc&Wp&Wl)&C); [lia|]. set (i := Z.of_nat k) in *.
    replace (Z.of_nat (S k)) with (i+1) in * by lia. assert (Hi : 0 <= i < (nmemb+bs-1)/bs) by lia.
    rewrite fold_zrange_snoc by lia. rewrite E. cbn [fwrite_block].
    destruct (block_off_eq i Hi) as [O1 O2]. destruct (block_len_eq i Hi) as [L1 L2]. rewrite O1, L1.
    set (len := donen (i+1) - donen i) in *. set (p := ptr + i*bs*size).
    destruct (write_once l (mm s) (ff s) p size len w Hw ltac:(lia)) as (m1&E1&m2&E2&(Vm&Vc&Vp&Vl)). rewrite E1, E2.
    eexists. split; [reflexivity|]. cbn [mm ff counts]. split; [|apply counts_step; auto].
    pose proof (donen_mono i ltac:(lia)) as DM.
    assert (Ps : 0 < size) by lia.
    assert (T0 : donen i * size = i*bs*size) by (rewrite O2; ring).
    assert (T1 : donen (i+1) * size = donen i * size + len*size) by (subst len; ring).
    assert (0 <= donen i * size) by nia. assert (0 < len * size) by nia.
    split; [|split; [|split]].
    + intros a. rewrite Vm. apply Wm.
    + intros o. rewrite Vc, Wp. set (o' := o - fpos (ff s0)).
      destruct (inb_spec (fpos (ff s0) + donen i * size) (len*size) o) as [I|I].
      * destruct (inb_spec (fpos (ff s0)) (donen (i+1) * size) o) as [_|N]; [|exfalso; apply N; lia].
        rewrite Wm. f_equal. subst p. rewrite T0.
        replace (o - (fpos (ff s0) + i*bs*size)) with (o' + (-(i*bs*d))*w) by (subst o'; rewrite Dw; ring).
        rewrite mirror_shift by auto. rewrite Dw. ring.
      * rewrite Wc. destruct (inb_spec (fpos (ff s0)) (donen i * size) o) as [I1|I1];
        destruct (inb_spec (fpos (ff s0)) (donen (i+1) * size) o) as [I2|I2]; try reflexivity; exfalso; lia.
    + rewrite Vp, Wp. lia.
    + rewrite Vl, Wl, Wp. lia.
Qed.

Lemma fread_blocks l ptr s0 k : Z.of_nat k <= (nmemb+bs-1)/bs -> counts s0 = [] -> 0 <= fpos (ff s0) ->
  fpos (ff s0) + donen (Z.of_nat k) * size <= flen (ff s0) ->
  exists s, fold_left (fread_block l ptr size nmemb bs) (zrange 0 (Z.of_nat k)) (Some s0) = Some s /\
    bread l w ptr (donen (Z.of_nat k) * size) (mm s0) (mm s) (ff s0) (ff s) /\ counts_ok (Z.of_nat k) (counts s).
Proof.
  intros Hk Hc Hpos. pose proof bs_bounds as B. destruct wdiv as (d&Dw&Pw). induction k as [|k IH]; intros Hlen.
  - rewrite zrange_nil by lia. exists s0. split; [reflexivity|].
    change (Z.of_nat 0) with 0. rewrite donen_0.
    split; [split; [|split; [reflexivity|split; lia]]|].
    + intros o. destruct (inb_spec ptr (0*size) o); [lia|reflexivity].
    + rewrite Hc. split; [constructor|cbn [fold_right]; rewrite donen_0; lia].
  - set (i := Z.of_nat k) in *.
    replace (Z.of_nat (S k)) with (i+1) in * by lia. assert (Hi : 0 <= i < (nmemb+bs-1)/bs) by lia.
    pose proof (donen_mono i ltac:(lia)) as DM. assert (Ps : 0 < size) by lia.
    destruct (block_off_eq i Hi) as [O1 O2]. destruct (block_len_eq i Hi) as [L1 L2].
    set (len := donen (i+1) - donen i) in *.
    assert (T0 : donen i * size = i*bs*size) by (rewrite O2; ring).
    assert (T1 : donen (i+1) * size = donen i * size + len*size) by (subst len; ring).
    assert (0 <= donen i * size) by nia. assert (0 < len * size) by nia.
    destruct IH as (s&E&(Wm&Wc&Wp&Wl)&C); [lia|lia|].
    rewrite fold_zrange_snoc by lia. rewrite E. cbn [fread_block]. rewrite O1, L1. fold len.
    set (p := ptr + i*bs*size).
    destruct (read_once l (mm s) (ff s) p size len w Hw ltac:(lia) ltac:(lia) ltac:(lia)) as (m1&f1&E1&m2&E2&(Vm&Vc&Vp&Vl)).
    rewrite E1, E2, Z.eqb_refl.
    eexists. split; [reflexivity|]. cbn [mm ff counts]. split; [|apply counts_step; auto].
    split; [|split; [|split]].
    + intros a. rewrite Vm, Wp. set (a' := a - ptr).
      destruct (inb_spec p (len*size) a) as [I|I]; subst p.
      * destruct (inb_spec ptr (donen (i+1) * size) a) as [_|N]; [|exfalso; apply N; lia].
        rewrite Wc. f_equal. rewrite T0.
        replace (a - (ptr + i*bs*size)) with (a' + (-(i*bs*d))*w) by (subst a'; rewrite Dw; ring).
        rewrite mirror_shift by auto. rewrite Dw. ring.
      * rewrite Wm. destruct (inb_spec ptr (donen i * size) a) as [I1|I1];
        destruct (inb_spec ptr (donen (i+1) * size) a) as [I2|I2]; try reflexivity; exfalso; lia.
    + intros o. rewrite Vc. apply Wc.
    + rewrite Vp, Wp. lia.
    + now rewrite Vl, Wl.
Qed.

Lemma donen_all : donen ((nmemb+bs-1)/bs) = nmemb.
Proof. unfold donen. pose proof nBlocks_cover. lia. Qed.

Lemma fold_fread_none l ptr L : fold_left (fread_block l ptr size nmemb bs) L None = None.
Proof. induction L; cbn [fold_left]; auto. Qed.

(** Too short a file: some block comes back short and the read dies. *)
Lemma fread_blocks_short l ptr s0 k : Z.of_nat k <= (nmemb+bs-1)/bs -> 0 <= fpos (ff s0) <= flen (ff s0) ->
  flen (ff s0) < fpos (ff s0) + donen (Z.of_nat k) * size -> counts s0 = [] ->
  fold_left (fread_block l ptr size nmemb bs) (zrange 0 (Z.of_nat k)) (Some s0) = None.
Proof.
  intros Hk Hpos. revert Hk. induction k as [|k IH]; intros Hk Hlen Hc.
  - change (Z.of_nat 0) with 0 in *. rewrite donen_0 in Hlen. lia.
  - set (i := Z.of_nat k) in *.
    replace (Z.of_nat (S k)) with (i+1) in * by lia. assert (Hi : 0 <= i < (nmemb+bs-1)/bs) by lia.
    rewrite fold_zrange_snoc by lia.
    destruct (Z.leb_spec (fpos (ff s0) + donen i * size) (flen (ff s0))) as [G|G].
    + destruct (fread_blocks l ptr s0 k ltac:(lia) Hc ltac:(lia)) as (s&E&(Wm&Wc&Wp&Wl)&C); [exact G|]. fold i in E. rewrite E.
      cbn [fread_block]. destruct (block_off_eq i Hi) as [O1 O2]. destruct (block_len_eq i Hi) as [L1 L2]. rewrite O1, L1.
      unfold raw_read. destruct (convertFromLE _ _ _ _ _); [|reflexivity].
      fold i in Wp. rewrite Wl, Wp.
      destruct (Z.eqb_spec (Z.max 0 (Z.min ((donen (i+1) - donen i)*size) (flen (ff s0) - (fpos (ff s0) + donen i*size))))
                  ((donen (i+1) - donen i)*size)) as [X|X]; [exfalso|reflexivity]. nia.
    + rewrite IH by (auto; lia). reflexivity.
Qed.
End Blocks.

Lemma mpi_fwrite_spec little ptr size nmemb w s : 1 <= size <= INT_MAX/2 -> 0 <= nmemb -> nmemb*size <= 2^63 ->
  number_width size = Some w -> counts s = [] -> fpos (ff s) <= flen (ff s) ->
  exists s', mpi_fwrite little ptr size nmemb s = Some s' /\
    written little w ptr (nmemb*size) (mm s) (mm s') (ff s) (ff s') /\
    Forall (fun c => 0 < c <= INT_MAX) (counts s') /\ fold_right Z.add 0 (counts s') = nmemb*size.
Proof.
  intros Hs Hn Ht Hw Hc Hl. unfold mpi_fwrite. rewrite nBlocks_eq by auto.
  pose proof (nBlocks_cover size nmemb Hs Hn Ht) as [_ NB].
  set (k := Z.to_nat ((nmemb + blockSize size - 1) / blockSize size)).
  assert (Ek : Z.of_nat k = (nmemb + blockSize size - 1) / blockSize size) by (subst k; apply Z2Nat.id; auto).
  destruct (fwrite_blocks size nmemb Hs Hn Ht w Hw little ptr s k) as (s'&E&W&C1&C2); [rewrite Ek; apply Z.le_refl|auto|auto|].
  rewrite <- Ek.
  exists s'. split; [exact E|].
  assert (D : donen size nmemb (Z.of_nat k) = nmemb) by (subst k; rewrite Z2Nat.id by auto; apply donen_all; auto).
  rewrite D in *. split; [apply bwritten_spec; auto; apply (width_pos _ _ Hw)|]. auto.
Qed.
Lemma mpi_fread_spec little ptr size nmemb w s : 1 <= size <= INT_MAX/2 -> 0 <= nmemb -> nmemb*size <= 2^63 ->
  number_width size = Some w -> counts s = [] -> 0 <= fpos (ff s) -> fpos (ff s) + nmemb*size <= flen (ff s) ->
  exists s', mpi_fread little ptr size nmemb s = Some s' /\
    read_back little w ptr (nmemb*size) (mm s) (mm s') (ff s) (ff s') /\
    Forall (fun c => 0 < c <= INT_MAX) (counts s') /\ fold_right Z.add 0 (counts s') = nmemb*size.
Proof.
  intros Hs Hn Ht Hw Hc Hp Hl. unfold mpi_fread. rewrite nBlocks_eq by auto.
  pose proof (nBlocks_cover size nmemb Hs Hn Ht) as [_ NB].
  set (k := Z.to_nat ((nmemb + blockSize size - 1) / blockSize size)).
  assert (Ek : Z.of_nat k = (nmemb + blockSize size - 1) / blockSize size) by (subst k; apply Z2Nat.id; auto).
  assert (D : donen size nmemb (Z.of_nat k) = nmemb) by (subst k; rewrite Z2Nat.id by auto; apply donen_all; auto).
  destruct (fread_blocks size nmemb Hs Hn Ht w Hw little ptr s k) as (s'&E&W&C1&C2); [rewrite Ek; apply Z.le_refl|auto|auto|rewrite D; auto|].
  rewrite <- Ek.
  exists s'. split; [exact E|]. rewrite D in *. split; [apply bread_spec; auto; apply (width_pos _ _ Hw)|]. auto.
Qed.
Lemma mpi_fread_short little ptr size nmemb w s : 1 <= size <= INT_MAX/2 -> 0 <= nmemb -> nmemb*size <= 2^63 ->
  number_width size = Some w -> counts s = [] -> 0 <= fpos (ff s) <= flen (ff s) -> flen (ff s) < fpos (ff s) + nmemb*size ->
  mpi_fread little ptr size nmemb s = None.
Proof.
  intros Hs Hn Ht Hw Hc Hp Hl. unfold mpi_fread. rewrite nBlocks_eq by auto.
  pose proof (nBlocks_cover size nmemb Hs Hn Ht) as [_ NB].
  set (k := Z.to_nat ((nmemb + blockSize size - 1) / blockSize size)).
  assert (Ek : Z.of_nat k = (nmemb + blockSize size - 1) / blockSize size) by (subst k; apply Z2Nat.id; auto).
  assert (D : donen size nmemb (Z.of_nat k) = nmemb) by (subst k; rewrite Z2Nat.id by auto; apply donen_all; auto).
  rewrite <- Ek.
  apply (fread_blocks_short size nmemb Hs Hn Ht w Hw); [rewrite Ek; apply Z.le_refl|auto|rewrite D; auto|auto].
Qed.

Lemma fwriteLE_spec little ptr size nmemb w f m : 0 <= nmemb -> number_width size = Some w ->
  exists m' f', fwriteLE little ptr size nmemb f m = Some (m', f', nmemb) /\ written little w ptr (nmemb*size) m m' f f'.
Proof.
  intros Hn Hw. unfold fwriteLE. destruct (write_once little m f ptr size nmemb w Hw Hn) as (m1&E1&m2&E2&W).
  rewrite E1, E2. rewrite (Z.mul_comm size). eexists. eexists. split; [reflexivity|]. apply bwritten_spec; auto. apply (width_pos _ _ Hw).
Qed.
Lemma freadLE_spec little ptr size nmemb w f m : 0 <= nmemb -> number_width size = Some w ->
  0 <= fpos f -> fpos f + nmemb*size <= flen f ->
  exists m' f', freadLE little ptr size nmemb f m = Some (m', f', nmemb) /\ read_back little w ptr (nmemb*size) m m' f f'.
Proof.
  intros Hn Hw Hp Hl. unfold freadLE. rewrite (Z.mul_comm size).
  destruct (read_once little m f ptr size nmemb w Hw Hn Hp Hl) as (m1&f1&E1&m2&E2&W). rewrite E1, E2.
  pose proof (width_pos _ _ Hw) as (P&_&Q). rewrite Z.div_mul by lia.
  eexists. eexists. split; [reflexivity|]. apply bread_spec; auto.
Qed.

(** Numbers survive a write on one host and a read on another. *)
Lemma roundtrip l1 l2 w p1 p2 n m1 m1' f f' m2 m2' f'' g : 0 < w ->
  written l1 w p1 n m1 m1' f f' -> read_back l2 w p2 n m2 m2' f'' g ->
  (forall o, content f'' o = content f' o) -> fpos f'' = fpos f ->
  forall q, 0 <= q -> (q+1)*w <= n -> host_number l2 m2' (p2+q*w) (Z.to_nat w) = host_number l1 m1 (p1+q*w) (Z.to_nat w).
Proof.
  intros Hw (A1&A2&_) (B1&_) Hc Hp q Hq Hn. rewrite B1, <- A2 by auto. rewrite Hp. apply le_number_ext. auto.
Qed.
