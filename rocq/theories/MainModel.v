(** * src/main.rs: the text printed by the program. *)
From Verif Require Import Base IntModel RatModel FieldIface MDegModel PolyModel DisplayModel.
Local Open Scope Z_scope.

(** main.rs:6-14; the last character is the newline of println! *)
Definition main_output (m : mode) : res chars :=
  let x := fun d => poly_var (F := rat_impl m) 0 d in
  let y := fun d => poly_var (F := rat_impl m) 1 d in
  p <- poly_add (x 1%nat) (y 1%nat) ;;
  q <- poly_sub (x 1%nat) (y 1%nat) ;;
  sp <- poly_display m p ;;
  sq <- poly_display m q ;;
  pq <- poly_mul m p q ;;
  spq <- poly_display m pq ;;
  Ok ([10; 40] ++ sp ++ [41; 40] ++ sq ++ [41; 32; 61; 32] ++ spq ++ [10]).
(** (x + y)(x - y) = x² - y² *)
Example main_prints : forall m, main_output m =
  Ok ([10; 40] ++ [120; 32; 43; 32; 121] ++ [41; 40] ++ [120; 32; 45; 32; 121] ++ [41; 32; 61; 32] ++
      [120; 178; 32; 45; 32; 121; 178] ++ [10]).
Proof. destruct m; reflexivity. Qed.
