(** Named energy components (C57).  Values are reals (double rounding not modelled). *)
From Coq Require Import List String Ascii Bool Reals.
From Verif Require Import SMap.
Import ListNotations.
Open Scope string_scope.

(** core/EnergyComponents.h:39 class EnergyComponents : public std::map<string,double> *)
Definition energy := smap R.
(** core/EnergyComponents.h:49-51 const operator[] : 0 for a missing key. *)
Definition E_get (E : energy) (k : string) : R := match find k E with Some v => v | None => 0%R end.
(** core/EnergyComponents.h:43-45  E[k] = v  and  E[k] += v  (missing entries start at 0). *)
Definition E_put (E : energy) (k : string) (v : R) : energy := update k 0%R (fun _ => v) E.
Definition E_acc (E : energy) (k : string) (v : R) : energy := update k 0%R (fun x => (x + v)%R) E.
(** core/EnergyComponents.h:54-57  assignment from a scalar *)
Definition E_assign (E : energy) (v : R) : energy := E_put [] "default" v.
(** core/EnergyComponents.h:60-62  accumulation of a scalar *)
Definition E_accScalar (E : energy) (v : R) : energy := E_acc E "default" v.
(** core/EnergyComponents.h:66-72  conversion to double: left-to-right sum from 0 *)
Definition E_total (E : energy) : R := fold_left (fun ret e => (ret + snd e)%R) E 0%R.

(** Characters of "0123456789-" (core/EnergyComponents.h:83). *)
Definition isIndexChar (c : ascii) : bool :=
  let n := nat_of_ascii c in ((48 <=? n)%nat && (n <=? 57)%nat) || (n =? 45)%nat.
(** core/EnergyComponents.h:83  name.substr(0, name.find_last_not_of("0123456789-")+1);
    with no other character find_last_not_of is npos and npos+1 = 0. *)
Fixpoint baseName (s : string) : string :=
  match s with
  | EmptyString => EmptyString
  | String c s' => match baseName s' with
                   | EmptyString => if isIndexChar c then EmptyString else String c EmptyString
                   | r => String c r
                   end
  end.
(** core/EnergyComponents.h:78-86  print: the lines written, in order. *)
Definition E_reduced (E : energy) (nonzeroOnly : bool) : energy :=
  fold_left (fun red e => if negb nonzeroOnly || negb (if Req_EM_T (snd e) 0 then true else false)
                          then E_acc red (baseName (fst e)) (snd e) else red) E [].
Definition E_print := E_reduced.
