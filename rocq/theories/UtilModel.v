(** * Model of src/linalg/util.rs (matrix-independent part). *)
From Verif Require Import Base.

(** util.rs:11-13 get_box_iter: row-major index pairs *)
Definition get_box_iter (rows cols : nat) : list (nat * nat) :=
  flat_map (fun r => map (fun c => (r, c)) (seq 0 cols)) (seq 0 rows).

(** Iterator::enumerate *)
Definition enumerate {A : Type} (l : list A) : list (nat * A) := combine (seq 0 (length l)) l.

(** util.rs:15-24 get_max_index.  The first [unwrap] is inside the comparison closure, the second on
    the result of max_by. *)
Definition get_max_index {A : Type} (le : A -> A -> res (option comparison)) (l : list A) : res nat :=
  o <- max_by (fun p q : nat * A => c <- le (snd p) (snd q) ;; unwrap c) (enumerate l) ;;
  p <- unwrap o ;;
  Ok (fst p).

(** usize arithmetic, 64 bit *)
Local Open Scope Z_scope.
Definition usize_max : Z := 18446744073709551615.
Definition usz (m : mode) (z : Z) : res Z :=
  if (0 <=? z) && (z <=? usize_max) then Ok z
  else match m with Debug => Panic Overflow | Release => Ok (z mod (usize_max + 1)) end.

(** util.rs:26-54 BaseSeqIterator: [new] multiplies by the base, [next] divides first.  [None] is the
    end of the iteration. *)
Definition base_seq_new (m : mode) (n base : Z) : res Z := usz m (n * base).
Definition base_seq_next (base n : Z) : res (Z * option Z) :=
  if base =? 0 then Panic DivZero
  else let n' := n / base in
       Ok (n', if n' =? 0 then None else Some (n' mod base)).

(** collecting the iterator *)
Fixpoint base_seq_collect (fuel : nat) (base n : Z) : res (list Z) :=
  match fuel with
  | O => NoFuel
  | S fuel' =>
      '(n', o) <- base_seq_next base n ;;
      match o with
      | None => Ok []
      | Some d => ds <- base_seq_collect fuel' base n' ;; Ok (d :: ds)
      end
  end.
(** util.rs:26-28 num_to_seq, collected *)
Definition num_to_seq (m : mode) (fuel : nat) (n base : Z) : res (list Z) :=
  s <- base_seq_new m n base ;; base_seq_collect fuel base s.
