(** EnumStringMap: two-way table between option keywords and enumeration values.
    Source: jdftx/core/Util.h:198-235.  Enumeration values are integers; std::map<Enum,string> is an
    association list searched by key (only lookups are made in it). *)
From Coq Require Import List String ZArith.
From Verif Require Import SMap.
Import ListNotations.
Open Scope string_scope.

Record enumMap := { stringToEnum : list (string * Z); enumToString : list (Z * string) }.

(** std::map<Enum,string>::operator[] assignment *)
Fixpoint zput (e : Z) (s : string) (m : list (Z * string)) : list (Z * string) :=
  match m with
  | [] => [(e, s)]
  | (e', s') :: m' => if Z.eqb e e' then (e', s) :: m' else (e', s') :: zput e s m'
  end.
Fixpoint zget (e : Z) (m : list (Z * string)) : option string :=
  match m with [] => None | (e', s') :: m' => if Z.eqb e e' then Some s' else zget e m' end.

(** Util.h:203-207  addEntry, over all the constructor's arguments *)
Fixpoint addEntry (args : list (Z * string)) (m : enumMap) : enumMap :=
  match args with
  | [] => m
  | (e, s) :: args' =>
    addEntry args' {| stringToEnum := update s 0%Z (fun _ => e) (stringToEnum m); enumToString := zput e s (enumToString m) |}
  end.
(** Util.h:211 *)
Definition mkEnumMap (args : list (Z * string)) : enumMap := addEntry args {| stringToEnum := []; enumToString := [] |}.

(** Util.h:214-222  getEnum (None: returns false) *)
Definition getEnum (m : enumMap) (key : string) : option Z := find key (stringToEnum m).
(** Util.h:225-228  getString (None: dereferences end(), undefined behaviour) *)
Definition getString (m : enumMap) (e : Z) : option string := zget e (enumToString m).
(** Util.h:230-235  optionList (None: dereferences begin() of an empty map) *)
Definition optionList (m : enumMap) : option string :=
  match keys (stringToEnum m) with
  | [] => None
  | k :: ks => Some (fold_left (fun ret k' => ret ++ ("|" ++ k')) ks k)
  end.
