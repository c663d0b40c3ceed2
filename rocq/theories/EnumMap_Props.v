(** C24: enumerated option names. *)
From Coq Require Import List String ZArith.
From Verif Require Import SMap EnumMap_Model EnumMap_Proofs.
Import ListNotations.
Open Scope string_scope.

(** What a keyword means (any table): the value of the last entry with this keyword, letter case ignored. *)
Theorem C24_keyword_lookup : forall args key e,
  getEnum (mkEnumMap args) key = Some e <->
  exists l1 s l2, args = (l1 ++ (e, s) :: l2)%list /\ ieq key s /\ forall x, In x l2 -> ~ ieq key (snd x).
Proof. exact getEnum_iff. Qed.
Print Assumptions C24_keyword_lookup.
(** What a value prints as (any table): the keyword of the last entry with this value. *)
Theorem C24_value_printed : forall args e s,
  getString (mkEnumMap args) e = Some s <-> exists l1 l2, args = (l1 ++ (e, s) :: l2)%list /\ forall x, In x l2 -> fst x <> e.
Proof. exact getString_iff. Qed.
Print Assumptions C24_value_printed.

(** Keywords distinct up to case, values possibly sharing several keywords: *)
Theorem C24_each_keyword_one_value : forall args e s,
  ForallOrdPairs (fun a b => ~ ieq (snd a) (snd b)) args -> In (e, s) args -> forall key, ieq key s -> getEnum (mkEnumMap args) key = Some e.
Proof. exact keyword_entry. Qed.
Print Assumptions C24_each_keyword_one_value.
(** the printed form of a value reads back as that value, *)
Theorem C24_printed_value_reads_back : forall args e s,
  ForallOrdPairs (fun a b => ~ ieq (snd a) (snd b)) args ->
  getString (mkEnumMap args) e = Some s -> getEnum (mkEnumMap args) s = Some e.
Proof. exact round_trip_value. Qed.
Print Assumptions C24_printed_value_reads_back.
(** every value that was read has a printed form with the same meaning, *)
Theorem C24_read_value_prints : forall args key e,
  ForallOrdPairs (fun a b => ~ ieq (snd a) (snd b)) args -> getEnum (mkEnumMap args) key = Some e ->
  exists s, getString (mkEnumMap args) e = Some s /\ In (e, s) args /\ getEnum (mkEnumMap args) s = Some e.
Proof. exact round_trip_keyword. Qed.
Print Assumptions C24_read_value_prints.
(** and when values are distinct too, it is the keyword itself up to case. *)
Theorem C24_printed_is_the_keyword : forall args key e s,
  ForallOrdPairs (fun a b => ~ ieq (snd a) (snd b)) args -> NoDup (List.map fst args) ->
  getEnum (mkEnumMap args) key = Some e -> getString (mkEnumMap args) e = Some s -> ieq s key.
Proof. exact printed_is_keyword. Qed.
Print Assumptions C24_printed_is_the_keyword.
Theorem C24_unknown_keyword_rejected : forall args key,
  (forall x, In x args -> ~ ieq key (snd x)) -> getEnum (mkEnumMap args) key = None.
Proof. exact getEnum_unknown. Qed.
Print Assumptions C24_unknown_keyword_rejected.

(** The list of options shown to the user is made of the accepted keywords, each once, separated by bars. *)
Theorem C24_option_list : forall args, args <> [] -> exists ks, optionList (mkEnumMap args) = Some (String.concat "|" ks) /\
  ForallOrdPairs (fun a b => ~ ieq a b) ks /\ (forall key, (exists k, In k ks /\ ieq key k) <-> exists e, getEnum (mkEnumMap args) key = Some e).
Proof. exact option_list. Qed.
Print Assumptions C24_option_list.

(** beginning of exCorrTypeMap (commands/elec_ex_corr.cpp:24-44), with its alias "lda" *)
Example C24_ex : let m := mkEnumMap [(0%Z, "lda"); (0%Z, "lda-PZ"); (1%Z, "lda-PW"); (5%Z, "gga"); (5%Z, "gga-PBE")] in
  getEnum m "LDA" = Some 0%Z /\ getString m 0 = Some "lda-PZ" /\ getEnum m "lda-pz" = Some 0%Z /\ getEnum m "pbe" = None
  /\ optionList m = Some "gga|gga-PBE|lda|lda-PW|lda-PZ".
Proof. repeat split. Qed.
Example C24_hyp_ex : ForallOrdPairs (fun a b : Z * string => ~ ieq (snd a) (snd b)) [(0%Z, "lda"); (0%Z, "lda-PZ"); (5%Z, "gga")].
Proof. repeat constructor; unfold ieq; cbn; discriminate. Qed.
