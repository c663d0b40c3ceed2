(** FFT box selection and its symmetry check.
    Sources: core/GridInfo.cpp:167-256, core/Util.h:188-195, core/vector3.h:155-170,
    core/scalar.h:52, electronic/Symmetries.cpp:594-611.
    Machine integers are modelled by unbounded Z; % and / are Z.rem and Z.quot (truncating, as in C).
    Every while loop takes explicit fuel and yields None when the fuel runs out. *)
From Coq Require Import ZArith List Bool.
From Verif Require Import Base Grid_Model.
Import ListNotations.
Open Scope Z_scope.

(** vector3<T>::operator[] (vector3.h:43-44): component read and write; index 0,1,2. *)
Definition get {A} (v : A*A*A) (k : nat) : A :=
  match k with O => fst (fst v) | 1%nat => snd (fst v) | _ => snd v end.
Definition set {A} (v : A*A*A) (k : nat) (x : A) : A*A*A :=
  let '(a,b,c) := v in match k with O => (x,b,c) | 1%nat => (a,x,c) | _ => (a,b,x) end.
(** vector3 *= scalar and += (vector3.h:56-71). *)
Definition scale3 (v : V3) (s : Z) : V3 := let '(a,b,c) := v in (a*s,b*s,c*s).
Definition add3 (v w : V3) : V3 := let '(a,b,c) := v in let '(x,y,z) := w in (a+x,b+y,c+z).

(** A 3x3 integer matrix as its three rows (matrix3.h). *)
Definition M3 := (V3*V3*V3)%type.
Definition mget (m : M3) (j k : nat) : Z := get (get m j) k.
Definition mset (m : M3) (j k : nat) (x : Z) : M3 := set m j (set (get m j) k x).
Definition dims : list nat := [0;1;2]%nat.

(** gcd (vector3.h:156-163): while(y != 0) { yPrev = y; y = x % y; x = yPrev; } *)
Fixpoint gcd_loop (fuel : nat) (x y : Z) : option Z :=
  match fuel with
  | O => None
  | S f => if y =? 0 then Some x else gcd_loop f y (Z.rem x y)
  end.
(** gcdReduce (vector3.h:166-169): divide by the gcd of the components; division by zero (undefined in C) gives None. *)
Definition gcdReduce (fuel : nat) (d : V3) : option V3 :=
  let '(a,b,c) := d in
  match gcd_loop fuel a b with
  | None => None
  | Some g1 => match gcd_loop fuel g1 c with
               | None => None
               | Some g => if g =? 0 then None else Some (Z.quot a g, Z.quot b g, Z.quot c g)
               end
  end.
(** ceildiv (scalar.h:52). *)
Definition ceildiv (num den : Z) : Z := Z.quot (num + den - 1) den.

(** fftSuitable (Util.h:189-195). *)
Fixpoint strip (fuel : nat) (p n : Z) : option Z :=
  match fuel with
  | O => None
  | S f => if Z.rem n p =? 0 then strip f p (Z.quot n p) else Some n
  end.
Definition fftSuitable (fuel : nat) (n : Z) : option bool :=
  option_map (fun t => t =? 1)
    (fold_left (fun acc p => match acc with Some t => strip fuel p t | None => None end) [2;3;5;7] (Some n)).

(** processSb (GridInfo.cpp:167-189).  The recursion descends at most once per dimension; fuel bounds it. *)
Definition Flags := (bool*bool*bool)%type.
Fixpoint processSb (fuel : nat) (ratios : M3) (j : nat) (Sb : V3) (done : Flags) : option (V3*Flags) :=
  match fuel with
  | O => None
  | S f =>
    fold_left (fun acc k =>
      match acc with
      | None => None
      | Some (Sb, done) =>
        if negb (Nat.eqb j k) && (negb (mget ratios j k =? 0) || negb (mget ratios k j =? 0)) then
          if negb (get Sb k =? 0) then (* 171-176 *)
            if negb (Z.rem (mget ratios j k * get Sb j) (get Sb k) =? 0)
               || negb (Z.rem (mget ratios k j * get Sb k) (get Sb j) =? 0)
            then Some ((1,1,1), done) else Some (Sb, done)
          else (* 177-187 *)
            let Sb' := if negb (mget ratios k j =? 0)
                       then set (scale3 Sb (mget ratios k j)) k (get Sb j * Z.max 1 (mget ratios j k))
                       else set Sb k (mget ratios j k * get Sb j) in
            processSb f ratios k Sb' done
        else Some (Sb, done)
      end) dims (Some (Sb, set done j true))
  end.

(** Loop of GridInfo.cpp:213-218. *)
Definition accum_ratio (fuel : nat) (rot : M3) (acc : option M3) (jk : nat*nat) : option M3 :=
  match acc with
  | None => None
  | Some r => let '(j,k) := jk in
      if negb (mget rot j k =? 0)
      then option_map (mset r j k) (gcd_loop fuel (mget r j k) (Z.abs (mget rot j k)))
      else Some r
  end.
Definition pairs : list (nat*nat) := flat_map (fun j => map (fun k => (j,k)) dims) dims.
Definition ratios_of (fuel : nat) (sym : list M3) : option M3 :=
  fold_left (fun acc rot => fold_left (accum_ratio fuel rot) pairs acc) sym (Some ((0,0,0),(0,0,0),(0,0,0))).

(** GridInfo.cpp:239: while(!fftSuitable(scaleSb)) scaleSb += 2; *)
Fixpoint grow (fuel ffuel : nat) (s : Z) : option Z :=
  match fuel with
  | O => None
  | S f => match fftSuitable ffuel s with
           | None => None
           | Some true => Some s
           | Some false => grow f ffuel (s+2)
           end
  end.

(** GridInfo.cpp:227-228 (the && short-circuits). *)
Definition suitable3 (fuel : nat) (Sb : V3) : option bool :=
  fold_left (fun acc k => match acc with
                          | Some true => if negb (get Sb k =? 0) then fftSuitable fuel (get Sb k) else Some true
                          | o => o end) dims (Some true).
(** GridInfo.cpp:234-238. *)
Definition initial_scale (Smin Sb : V3) : Z :=
  fold_left (fun sc k => if negb (get Sb k =? 0)
                         then let s := 2 * ceildiv (get Smin k) (2 * get Sb k) in if sc <? s then s else sc
                         else sc) dims 0.
(** GridInfo.cpp:231. *)
Definition isotropic (Sb : V3) : V3 :=
  fold_left (fun S k => if negb (get S k =? 0) then set S k 1 else S) dims Sb.

(** One pass of the body of GridInfo.cpp:222-242 for dimension j. *)
Definition box_step (fuel : nat) (Smin : V3) (ratios : M3) (st : V3*Flags) (j : nat) : option (V3*Flags) :=
  let '(Sv, done) := st in
  if get done j then Some (Sv, done) else
  match processSb 4 ratios j (set (0,0,0) j 1) done with
  | None => None
  | Some (Sb, done) =>
    match gcdReduce fuel Sb with
    | None => None
    | Some Sb =>
      match suitable3 fuel Sb with
      | None => None
      | Some ok =>
        let Sb := if ok then Sb else isotropic Sb in
        match grow fuel fuel (initial_scale Smin Sb) with
        | None => None
        | Some sc => Some (add3 Sv (scale3 Sb sc), done)
        end
      end
    end
  end.
(** GridInfo.cpp:211-243: automatic choice of S from the lower bound Smin (line 208) and the rotations. *)
Definition chooseS (fuel : nat) (Smin : V3) (sym : list M3) : option V3 :=
  match ratios_of fuel sym with
  | None => None
  | Some ratios =>
    option_map fst (fold_left (fun acc j => match acc with Some st => box_step fuel Smin ratios st j | None => None end)
                      dims (Some ((0,0,0), (false,false,false))))
  end.

(** Symmetries::checkFFTbox (Symmetries.cpp:594-611): mMesh = Diag(S) * rot; every entry must be divisible by S[j].
    true = accepted, false = die(). *)
Definition checkFFTbox (S : V3) (sym : list M3) : bool :=
  forallb (fun rot => forallb (fun ij => let '(i,j) := ij in Z.rem (get S i * mget rot i j) (get S j) =? 0) pairs) sym.

(** The mesh matrix computed inside checkFFTbox (Symmetries.cpp:599-604): mMesh = Diag(S) * rot, each entry
    divided by S[j]; applied to integer mesh coordinates. *)
Definition mesh_entry (Sv : V3) (rot : M3) (i j : nat) : Z := Z.quot (get Sv i * mget rot i j) (get Sv j).
Definition mesh_apply (Sv : V3) (rot : M3) (m : V3) : V3 :=
  let c i := mesh_entry Sv rot i 0 * get m 0 + mesh_entry Sv rot i 1 * get m 1 + mesh_entry Sv rot i 2 * get m 2 in
  (c 0%nat, c 1%nat, c 2%nat).
