(** Functions on radial grids: quadrature weights and spherical Bessel transform.
    Models /repo/jdftx/core/RadialFunction.cpp lines 77-84 (logarithmic grid), 92-131 (RadialFunctionR_initWeights_sub), 133-145 (initWeights) and 149-159 (transform).
    Doubles are idealised as reals.  A std::vector is a function of the index together with the number of samples; None is a failed assertion or an exit.
    The threads of initWeights each take some of the j, which are independent. *)
From Coq Require Import Reals List Bool Arith.
From Verif Require Import Bessel_Model.
Import ListNotations.
Local Open Scope R_scope.

Definition arr := nat -> R.
Definition upd (a : arr) (i : nat) (x : R) : arr := fun k => if (k =? i)%nat then x else a k.
Definition addTo (a : arr) (i : nat) (x : R) : arr := upd a i (a i + x).
Record tri := Tri { t_a : arr; t_b : arr; t_c : arr; t_d : arr }.

Section Weights.
  Variables (n : nat) (r : arr).
  (** lines 101-106 *)
  Definition assembleStep (y : arr) (t : tri) (i : nat) : tri :=
    let hInv := 1 / (r (S i) - r i) in
    let rhs := 3 * hInv * hInv * (y (S i) - y i) in
    let b := addTo (t_b t) i (2 * hInv) in let c := addTo (t_c t) i hInv in let d := addTo (t_d t) i rhs in
    Tri (addTo (t_a t) (S i) hInv) (addTo b (S i) (2 * hInv)) c (addTo d (S i) rhs).
  Definition assemble (y : arr) : tri :=
    fold_left (assembleStep y) (seq 0 (n - 1)) (Tri (fun _ => 0) (fun _ => 0) (fun _ => 0) (fun _ => 0)).
  (** lines 108-112 *)
  Definition eliminateStep (t : tri) (i : nat) : tri :=
    let frac := t_a t i / t_b t (i - 1)%nat in
    Tri (t_a t) (upd (t_b t) i (t_b t i - frac * t_c t (i - 1)%nat)) (t_c t) (upd (t_d t) i (t_d t i - frac * t_d t (i - 1)%nat)).
  Definition eliminate (t : tri) : tri := fold_left eliminateStep (seq 1 (n - 1)) t.
  (** lines 113-116 *)
  Definition substitute (t : tri) : arr :=
    let yp := upd (fun _ => 0) (n - 1) (t_d t (n - 1)%nat / t_b t (n - 1)%nat) in
    fold_left (fun yp i => upd yp i ((t_d t i - t_c t i * yp (S i)) / t_b t i)) (rev (seq 0 (n - 1))) yp.
  Definition slopes (y : arr) : arr := substitute (eliminate (assemble y)).
  (** lines 119-128; the state is r0, y0, yp0 and wj *)
  Definition interval (r0 r1 y0 y1 yp0 yp1 : R) : R :=
    (1/60) * (r1 - r0) * (r0 * r1 * 10 * (y0 + y1)
      + r0 * r0 * (16 * y0 + 4 * y1 + r0 * (yp1 - 2 * yp0) + r1 * yp1)
      + r1 * r1 * (16 * y1 + 4 * y0 + r1 * (yp0 - 2 * yp1) + r0 * yp0)).
  Definition integrate (y yp : arr) : R :=
    let r0 := r 0%nat in
    let wj := (1/3) * (r0 * r0 * r0) * (y 0%nat - 0.25 * r0 * yp 0%nat) in
    let st := fold_left (fun (st : R * R * R * R) i => let '(r0, y0, yp0, wj) := st in
        let r1 := r (S i) in let y1 := y (S i) in let yp1 := yp (S i) in
        (r1, y1, yp1, wj + interval r0 r1 y0 y1 yp0 yp1)) (seq 0 (n - 1)) (r0, y 0%nat, yp 0%nat, wj) in
    snd st.
  (** line 99 *)
  Definition unit (j : nat) : arr := upd (fun _ => 0) j 1.
  (** lines 93-129 *)
  Definition weight (j : nat) : R := let y := unit j in let wj := integrate y (slopes y) in wj / (r j * r j).
End Weights.
(** lines 136-143: the locations and weights *)
Definition initWeights (n : nat) (r : arr) : option (arr * arr) :=
  if (2 <=? n)%nat && (if Rle_dec 0 (r 0%nat) then true else false) && forallb (fun i => if Rlt_dec (r i) (r (S i)) then true else false) (seq 0 (n - 1)) then
    let r := if Req_EM_T (r 0%nat) 0 then upd r 0 (/ 10 ^ 6 * r 1%nat) else r in
    Some (r, weight n r)
  else None.
(** lines 77-84: the weights of a logarithmic grid *)
Definition logGrid (n : nat) (r : arr) (dlogr : R) : option arr :=
  if forallb (fun i => if Rlt_dec (/ 10 ^ 6) (Rabs (ln (r i / r (i - 1)%nat) - dlogr)) then false else true) (seq 1 (n - 1)) then Some (fun i => r i * dlogr) else None.
(** lines 149-159; no samples: the size minus one wraps around and half of it is -1 as an int, so that there are no iterations *)
Definition simpson (Nhlf i : nat) : R := if (i =? 0)%nat || (i =? 2 * Nhlf)%nat then 1 else INR (2 * (i mod 2 + 1)).
Definition transform (n : nat) (r dr f : arr) (l : nat) (G : R) : R :=
  match n with
  | O => 0
  | _ => let Nhlf := ((n - 1) / 2)%nat in
    4 * PI / 3 * fold_left (fun sum i => sum + f i * bessel_jl l (G * r i) * (dr i * r i * r i) * simpson Nhlf i) (seq 0 (2 * Nhlf + 1)) 0
  end.
