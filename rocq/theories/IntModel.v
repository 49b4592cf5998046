(** * Model of src/core/num/int.rs: the type [Integer], a wrapper around i64.

    The wrapper is dropped: an [Integer] is a [Z]; that it fits into an i64 is
    tracked by [in64].  Every primitive operation takes the build profile. *)
From Verif Require Import Base.
Open Scope Z_scope.

Definition i64_min : Z := - 2 ^ 63.
Definition i64_max : Z := 2 ^ 63 - 1.
Definition in64b (z : Z) : bool := (i64_min <=? z) && (z <=? i64_max).
Definition in64 (z : Z) : Prop := i64_min <= z <= i64_max.

(** two's complement reduction to 64 bits *)
Definition wrap64 (z : Z) : Z := (z + 2 ^ 63) mod 2 ^ 64 - 2 ^ 63.

(** result of a Rust i64 [+ - * neg abs pow]: exact if it fits, otherwise a panic
    (overflow checks on) or the wrapped value (off). *)
Definition chk64 (m : mode) (z : Z) : res Z :=
  if in64b z then Ok z
  else match m with Debug => Panic Overflow | Release => Ok (wrap64 z) end.

(** int.rs:97-111 impl_integer_binop! { Add, Sub, Mul, Div, Rem }, forwarding to i64 *)
Definition int_add (m : mode) (a b : Z) : res Z := chk64 m (a + b).
Definition int_sub (m : mode) (a b : Z) : res Z := chk64 m (a - b).
Definition int_mul (m : mode) (a b : Z) : res Z := chk64 m (a * b).
(** i64 division truncates; a zero divisor and MIN / -1 panic in every profile. *)
Definition int_div (m : mode) (a b : Z) : res Z :=
  if b =? 0 then Panic DivZero
  else if (a =? i64_min) && (b =? -1) then Panic Overflow
  else Ok (Z.quot a b).
Definition int_rem (m : mode) (a b : Z) : res Z :=
  if b =? 0 then Panic DivZero
  else if (a =? i64_min) && (b =? -1) then Panic Overflow
  else Ok (Z.rem a b).
(** int.rs:113-119 impl Neg *)
Definition int_neg (m : mode) (a : Z) : res Z := chk64 m (- a).

(** int.rs:31-33 sgn *)
Definition int_sgn (a : Z) : Z := Z.sgn a.
(** int.rs:37-39 is_pos, 43-45 is_neg *)
Definition int_is_pos (a : Z) : bool := 0 <? a.
Definition int_is_neg (a : Z) : bool := a <? 0.
(** int.rs:51-53 abs (i64::abs overflows at MIN) *)
Definition int_abs (m : mode) (a : Z) : res Z := chk64 m (Z.abs a).

(** [as u32] on an i64: truncation to the low 32 bits *)
Definition as_u32 (z : Z) : Z := z mod 2 ^ 32.
(** int.rs:59-61 pow: the exponent is cast to u32 first.  i64::pow is taken by its
    contract: the exact power, panicking or wrapping when it does not fit. *)
Definition int_pow (m : mode) (a e : Z) : res Z := chk64 m (a ^ as_u32 e).

(** int.rs:66-78 gcd: the loop [while b != 0 { t = b; b = a % b; a = t }; a.abs()].
    The loop runs on fuel; [int_gcd] supplies enough (logarithmically many steps),
    which is proved (never [NoFuel]). *)
Fixpoint gcd_loop (fuel : nat) (m : mode) (a b : Z) : res Z :=
  if b =? 0 then int_abs m a
  else match fuel with
       | O => NoFuel
       | S k => r <- int_rem m a b ;; gcd_loop k m b r
       end.
Definition gcd_fuel (b : Z) : nat := (2 * Z.to_nat (Z.log2 (Z.abs b)) + 3)%nat.
Definition int_gcd (m : mode) (a b : Z) : res Z := gcd_loop (gcd_fuel b) m a b.

(** int.rs:83-85 lcm: [a / gcd(a, b) * b] *)
Definition int_lcm (m : mode) (a b : Z) : res Z :=
  g <- int_gcd m a b ;;
  q <- int_div m a g ;;
  int_mul m q b.

(** traits.rs:33-40 Zero for Integer, 79-86 One for Integer *)
Definition int_is_zero (a : Z) : bool := a =? 0.
Definition int_is_one (a : Z) : bool := a =? 1.
