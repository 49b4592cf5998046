(** * Model of src/poly/mdeg.rs: MultiDegree, a wrapper around Vec<u8>.

    A multidegree is a [list nat]; entries are u8 values, so sums are range-checked
    (or wrapped) at 255. *)
From Verif Require Import Base.

Definition mdeg := list nat.

(** Rust u8 addition *)
Definition u8_add (m : mode) (a b : nat) : res nat :=
  if a + b <=? 255 then Ok (a + b)
  else match m with Debug => Panic Overflow | Release => Ok ((a + b) mod 256) end.

(** derived PartialEq: structural equality of the vectors (mdeg.rs:19) *)
Fixpoint mdeg_eqb (a b : mdeg) : bool :=
  match a, b with
  | [], [] => true
  | x :: a', y :: b' => (x =? y) && mdeg_eqb a' b'
  | _, _ => false
  end.

(** mdeg.rs:56-58 zero, 27-29 new, 172-177 default *)
Definition mdeg_zero : mdeg := [].

(** mdeg.rs:35-39 trim_zeros: truncates after the last nonzero entry, if there is one *)
Definition mdeg_trim_zeros (v : mdeg) : mdeg :=
  match rposition (fun d => negb (d =? 0)) v with
  | Some idx => firstn (idx + 1) v
  | None => v
  end.

(** mdeg.rs:43-50 from_vec *)
Definition mdeg_from_vec (v : list nat) : mdeg :=
  match rposition (fun d => negb (d =? 0)) v with
  | Some idx => firstn (idx + 1) v
  | None => mdeg_zero
  end.

(** mdeg.rs:61-63 is_zero *)
Definition mdeg_is_zero (v : mdeg) : bool :=
  match v with [] => true | _ => false end.

(** mdeg.rs:68-76 var *)
Definition mdeg_var (idx deg : nat) : mdeg :=
  if deg =? 0 then mdeg_zero else repeat 0 idx ++ [deg].

(** mdeg.rs:97-99 total_deg: u8 sum *)
Definition mdeg_total_deg (m : mode) (v : mdeg) : res nat := foldM (u8_add m) v 0.

(** mdeg.rs:106-108 len *)
Definition mdeg_len (v : mdeg) : nat := length v.

(** mdeg.rs:110-122 is_succ: the zip loop *)
Fixpoint mdeg_zip_le (a b : mdeg) : bool :=
  match a, b with
  | x :: a', y :: b' => if y <? x then false else mdeg_zip_le a' b'
  | _, _ => true
  end.
Definition mdeg_is_succ (self other : mdeg) : bool :=
  if mdeg_len other <? mdeg_len self then false else mdeg_zip_le self other.

(** mdeg.rs:126-169 checked_sub: loop over zip_longest with the accumulated vector [degs]
    and the counter [zero_cache] *)
Fixpoint checked_sub_loop (pairs : list (either_or_both nat)) (degs : list nat) (zero_cache : nat)
  : option mdeg :=
  match pairs with
  | [] => Some degs
  | Both a b :: ps =>
      match a ?= b with
      | Lt => None
      | Eq => checked_sub_loop ps degs (zero_cache + 1)
      | Gt => checked_sub_loop ps (degs ++ repeat 0 zero_cache ++ [a - b]) 0
      end
  | Left a :: ps => checked_sub_loop ps (degs ++ repeat 0 zero_cache ++ [a]) 0
  | Right _ :: _ => None
  end.
Definition mdeg_checked_sub (self rhs : mdeg) : option mdeg :=
  if mdeg_is_zero rhs then Some self
  else if mdeg_is_zero self then None
  else checked_sub_loop (zip_longest self rhs) [] 0.

(** mdeg.rs:179-208 Add *)
Fixpoint mdeg_add_loop (m : mode) (pairs : list (either_or_both nat)) (degs : list nat) (zero_cache : nat)
  : res mdeg :=
  match pairs with
  | [] => Ok degs
  | Both 0 0 :: ps | Left 0 :: ps | Right 0 :: ps => mdeg_add_loop m ps degs (zero_cache + 1)
  | Both a b :: ps =>
      c <- u8_add m a b ;;
      mdeg_add_loop m ps (degs ++ repeat 0 zero_cache ++ [c]) 0
  | Left a :: ps => mdeg_add_loop m ps (degs ++ repeat 0 zero_cache ++ [a]) 0
  | Right b :: ps => mdeg_add_loop m ps (degs ++ repeat 0 zero_cache ++ [b]) 0
  end.
Definition mdeg_add (m : mode) (a b : mdeg) : res mdeg :=
  mdeg_add_loop m (zip_longest a b) [] 0.
