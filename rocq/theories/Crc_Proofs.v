(** Table driven and bit-serial CRC-32 agree. *)
From Coq Require Import NArith ZArith List Bool Lia.
From Verif Require Import Crc_Model Crc_Spec.
Import ListNotations.
Open Scope N_scope.

(** One zero-bit step of the register. *)
Definition stp (x : N) : N := if N.odd x then N.lxor (N.shiftr x 1) 0xEDB88320 else N.shiftr x 1.
Fixpoint it (n : nat) (x : N) : N := match n with O => x | S k => stp (it k x) end.
Definition stp8 (x : N) : N := stp (stp (stp (stp (stp (stp (stp (stp x))))))).

Lemma odd_lxor x y : N.odd (N.lxor x y) = xorb (N.odd x) (N.odd y).
Proof. rewrite <- !N.bit0_odd. apply N.lxor_spec. Qed.
Lemma stp_lxor x y : stp (N.lxor x y) = N.lxor (stp x) (stp y).
Proof.
  unfold stp. rewrite odd_lxor, N.shiftr_lxor.
  destruct (N.odd x), (N.odd y); cbn [xorb]; apply N.bits_inj; intros i; rewrite !N.lxor_spec;
    destruct (N.testbit (N.shiftr x 1) i), (N.testbit (N.shiftr y 1) i), (N.testbit 3988292384 i); reflexivity.
Qed.
Lemma stp8_lxor x y : stp8 (N.lxor x y) = N.lxor (stp8 x) (stp8 y).
Proof. unfold stp8. now rewrite !stp_lxor. Qed.
Lemma stp_double x : stp (2*x) = x.
Proof.
  unfold stp. rewrite N.odd_mul. cbn [N.odd andb]. change (N.odd 2) with false. cbn [andb].
  rewrite N.shiftr_div_pow2. change (2^1) with 2. now rewrite N.mul_comm, N.div_mul.
Qed.
Lemma stp8_high x : stp8 (256*x) = x.
Proof.
  unfold stp8. replace (256*x) with (2*(2*(2*(2*(2*(2*(2*(2*x)))))))) by lia. now rewrite !stp_double.
Qed.

Lemma table_ok : forallb (fun i => N.eqb (nth i table 0) (stp8 (N.of_nat i))) (seq 0 256) = true.
Proof. vm_compute. reflexivity. Qed.
Lemma table_entry i : i < 256 -> nth (N.to_nat i) table 0 = stp8 i.
Proof.
  intros Hi. pose proof table_ok as T. rewrite forallb_forall in T.
  specialize (T (N.to_nat i)). rewrite N2Nat.id in T. apply N.eqb_eq, T, in_seq. lia.
Qed.

(** Feeding bits is feeding zero bits after xoring the bit into the low end. *)
Lemma shift_bit_stp r b : shift_bit r b = stp (N.lxor r (N.b2n b)).
Proof.
  unfold shift_bit, stp. rewrite odd_lxor. replace (N.odd (N.b2n b)) with b by (destruct b; reflexivity).
  assert (E : N.shiftr (N.lxor r (N.b2n b)) 1 = N.shiftr r 1).
  { rewrite N.shiftr_lxor. destruct b; cbn; apply N.lxor_0_r. }
  now rewrite E.
Qed.
Definition low_byte (c : Z) : N := Z.to_N (c mod 256)%Z.
Lemma byte_bits_low c : byte_bits c = byte_bits (Z.of_N (low_byte c)).
Proof.
  unfold low_byte. rewrite Z2N.id by (apply Z.mod_pos_bound; lia). unfold byte_bits. change 256%Z with (2^8)%Z.
  apply map_ext_in. intros i Hi. rewrite Z.mod_pow2_bits_low; [reflexivity|]. cbn in Hi. intuition lia.
Qed.
Lemma low_byte_lt c : low_byte c < 256.
Proof. unfold low_byte. pose proof (Z.mod_pos_bound c 256 ltac:(lia)). lia. Qed.

(** For a zero register the 8 bit steps are stp8 of the byte; checked for the 256 bytes, extended by linearity. *)
Lemma bits_zero_all : forallb (fun i => N.eqb (fold_left shift_bit (byte_bits (Z.of_nat i)) 0) (stp8 (N.of_nat i))) (seq 0 256) = true.
Proof. vm_compute. reflexivity. Qed.
Lemma bits_zero b : b < 256 -> fold_left shift_bit (byte_bits (Z.of_N b)) 0 = stp8 b.
Proof.
  intros Hb. pose proof bits_zero_all as T. rewrite forallb_forall in T. specialize (T (N.to_nat b)).
  rewrite N2Nat.id in T. replace (Z.of_nat (N.to_nat b)) with (Z.of_N b) in T by lia. apply N.eqb_eq, T, in_seq. lia.
Qed.
Lemma it_0 n : it n 0 = 0.
Proof. induction n as [|n IHn]; cbn [it]; [reflexivity|]. rewrite IHn. reflexivity. Qed.
Lemma fold_shift_linear L : forall r, fold_left shift_bit L r = N.lxor (it (length L) r) (fold_left shift_bit L 0).
Proof.
  assert (I : forall n x, it n (stp x) = stp (it n x)).
  { induction n; intros x; cbn [it]; [reflexivity|]. now rewrite IHn. }
  assert (IL : forall n x y, it n (N.lxor x y) = N.lxor (it n x) (it n y)).
  { induction n; intros x y; cbn [it]; [reflexivity|]. now rewrite IHn, stp_lxor. }
  induction L as [|b L IH]; intros r; cbn [fold_left length]; [cbn [it]; now rewrite N.lxor_0_r|].
  rewrite (IH (shift_bit r b)), (IH (shift_bit 0 b)). rewrite !shift_bit_stp, !stp_lxor, !IL.
  change (it (S (length L)) r) with (stp (it (length L) r)). rewrite <- I.
  change (stp 0) with 0. pose proof (it_0 (length L)) as Z0.
  rewrite Z0, N.lxor_0_l. now rewrite <- N.lxor_assoc.
Qed.
Lemma byte_step r c : fold_left shift_bit (byte_bits c) r = N.lxor (stp8 r) (stp8 (low_byte c)).
Proof.
  rewrite fold_shift_linear. rewrite (byte_bits_low c), bits_zero by apply low_byte_lt.
  replace (length (byte_bits (Z.of_N (low_byte c)))) with 8%nat by reflexivity. reflexivity.
Qed.

Lemma promote_low c : N.land (promote c) 255 = low_byte c.
Proof.
  change 255 with (N.ones 8). rewrite N.land_ones. unfold promote, low_byte.
  apply N2Z.inj. rewrite N2Z.inj_mod by discriminate. rewrite !Z2N.id by (apply Z.mod_pos_bound; lia).
  change (Z.of_N (2^8)) with (2^8)%Z. change 256%Z with (2^8)%Z.
  rewrite <- Znumtheory.Zmod_div_mod; [reflexivity|lia|lia|]. exists (2^24)%Z. reflexivity.
Qed.

Lemma split_low r : r = N.lxor (256 * N.shiftr r 8) (N.land r 255).
Proof.
  change 255 with (N.ones 8). rewrite N.land_ones, N.shiftr_div_pow2. change (2^8) with 256.
  assert (D : N.land (256 * (r/256)) (r mod 256) = 0).
  { apply N.bits_inj. intros i. rewrite N.land_spec, N.bits_0. destruct (N.lt_ge_cases i 8).
    - replace (256*(r/256)) with ((r/256) * 2^8) by (change (2^8) with 256; lia). now rewrite N.mul_pow2_bits_low.
    - change 256 with (2^8). rewrite N.mod_pow2_bits_high by auto. apply andb_false_r. }
  rewrite <- N.add_nocarry_lxor by exact D. apply N.div_mod'.
Qed.

Lemma crc_step_bits r c : crc_step r c = fold_left shift_bit (byte_bits c) r.
Proof.
  rewrite byte_step. unfold crc_step. change 0xff with 255.
  assert (E : N.land (N.lxor r (promote c)) 255 = N.lxor (N.land r 255) (N.land (promote c) 255))
    by (apply N.bits_inj; intros i; rewrite !N.land_spec, !N.lxor_spec, !N.land_spec;
        destruct (N.testbit r i), (N.testbit (promote c) i), (N.testbit 255 i); reflexivity). rewrite E. clear E.
  rewrite promote_low.
  assert (B : N.lxor (N.land r 255) (low_byte c) < 256).
  { destruct (N.eq_dec (N.lxor (N.land r 255) (low_byte c)) 0) as [->|Nz]; [lia|].
    change 256 with (2^8). apply N.log2_lt_pow2; [lia|].
    eapply N.le_lt_trans; [apply N.log2_lxor|].
    assert (N.log2 (N.land r 255) < 8).
    { change 255 with (N.ones 8). rewrite N.land_ones. destruct (N.eq_dec (r mod 2^8) 0) as [->|Hz]; [reflexivity|].
      apply N.log2_lt_pow2; [apply N.neq_0_lt_0; exact Hz|]. apply N.mod_lt. discriminate. }
    assert (N.log2 (low_byte c) < 8).
    { destruct (N.eq_dec (low_byte c) 0) as [->|]; [reflexivity|]. apply N.log2_lt_pow2; [lia|]. apply low_byte_lt. }
    lia. }
  rewrite table_entry by exact B. rewrite stp8_lxor.
  assert (R : stp8 r = N.lxor (N.shiftr r 8) (stp8 (N.land r 255))).
  { rewrite (split_low r) at 1. rewrite stp8_lxor, stp8_high. reflexivity. }
  rewrite R. apply N.bits_inj. intros i. rewrite !N.lxor_spec.
  destruct (N.testbit (stp8 (N.land r 255)) i), (N.testbit (stp8 (low_byte c)) i), (N.testbit (N.shiftr r 8) i); reflexivity.
Qed.

Lemma crc32_correct s : crc32 s = crc32_spec s.
Proof.
  unfold crc32, crc32_spec. f_equal. generalize 0xFFFFFFFF. induction s as [|c s IH]; intros r; [reflexivity|].
  cbn [fold_left flat_map]. rewrite fold_left_app, <- crc_step_bits. apply IH.
Qed.
