(** * The unit tests of the crate (the modules under #[cfg(test)]), run on the model.

    A test is a computation of type [res unit]; a failing assertion panics.  Every assertion of the crate occurs here; the
    ones with concrete arguments are evaluated below, so that a model that disagrees with a test of the crate does not
    compile.  What the tests only print is left out, except for the Groebner bases of comp.rs:396-425. *)
From Coq Require Import String.
From Verif Require Import Base BaseLemmas IntModel RatModel FieldIface UtilModel MDegModel OrdModel PolyModel CompModel MatModel AlgModel FloatModel DisplayModel MatDisplay DebugModel.
Local Open Scope nat_scope.

(** assert!(b) and the final panic of assert_eq! *)
Definition assert (b : bool) : res unit := if b then Ok tt else Panic Explicit.
Fixpoint all (l : list (res unit)) : res unit := match l with [] => Ok tt | x :: l' => _ <- x ;; all l' end.
Definition for_each {A} (body : A -> res unit) (l : list A) : res unit := foldM (fun _ x => body x) l tt.

(** ** core/num *)
(** int.rs:133-142 test_gcd *)
Definition test_gcd (m : mode) : res unit :=
  let check a b r := g <- int_gcd m a b ;; assert (g =? r)%Z in
  all [check (-10) (-15) 5; check (-5) (-10) 5; check (-0) (-1) 1; check (-5) (-6) 1; check (-80) (-20) 20]%Z.
Example test_gcd_passes : forall m, test_gcd m = Ok tt. Proof. destruct m; reflexivity. Qed.

(** rat.rs:187-240 test_rational *)
Definition test_rational (m : mode) : res unit :=
  let is (x : res rat) (n d : Z) := r <- x ;; assert (rat_eqb r (mkrat n d)) in
  let op (f : rat -> rat -> res rat) := a <- rat_new m 1 2 ;; b <- rat_new m 1 3 ;; f a b in
  all [is (rat_new m 0 1) 0 1; is (rat_new m 1 1) 1 1; is (rat_new m 2 2) 1 1;
       is (op (rat_add m)) 5 6; is (op (rat_sub m)) 1 6; is (op (rat_mul m)) 1 6; is (op (rat_div m)) 3 2]%Z.
Example test_rational_passes : forall m, test_rational m = Ok tt. Proof. destruct m; reflexivity. Qed.

(** ** poly/ord.rs *)
Definition cmp_eqb (a b : comparison) : bool := match a, b with Lt, Lt | Eq, Eq | Gt, Gt => true | _, _ => false end.
(** ord.rs:150-175; mdeg![..] is from_vec *)
Definition ord_is (O : ord_impl) (c : comparison) (l : list (list nat * list nat)) : res unit :=
  for_each (fun p => r <- O (mdeg_from_vec (fst p)) (mdeg_from_vec (snd p)) ;; assert (cmp_eqb r c)) l.
(** ord.rs:176-191 test_grad *)
Definition test_grad (m : mode) : res unit := all [
  ord_is (grad m) Eq [([0;0;0],[0;0;0]); ([1;0;0],[1;0;0]); ([1;2;3],[1;2;3]); ([0;0;1],[0;0;1]); ([1;0;0],[0;1;0])];
  ord_is (grad m) Lt [([2;2;0],[1;1;5]); ([1;0;0],[0;1;1])];
  ord_is (grad m) Gt [([2;2;0],[0;0;1]); ([0;0;2],[1;0;0]); ([0;3;0],[1;0;1])]].
(** ord.rs:194-207 test_lex *)
Definition test_lex : res unit := all [
  ord_is lex_cmp Eq [([0;0;0],[0;0;0]); ([1;0;0],[1;0;0]); ([1;2;3],[1;2;3]); ([0;0;1],[0;0;1])];
  ord_is lex_cmp Lt [([0;1;0],[1;0;1]); ([0;0;1],[1;0;0])];
  ord_is lex_cmp Gt [([1;0;0],[0;1;0]); ([2;2;0],[0;0;1])]].
(** ord.rs:210-223 test_revlex *)
Definition test_revlex : res unit := all [
  ord_is revlex_cmp Eq [([0;0;0],[0;0;0]); ([1;0;0],[1;0;0]); ([1;2;3],[1;2;3]); ([0;0;1],[0;0;1])];
  ord_is revlex_cmp Lt [([1;0;0],[0;1;0]); ([0;1;0],[1;0;1]); ([2;2;0],[0;0;1])];
  ord_is revlex_cmp Gt [([0;0;1],[1;0;0])]].
(** ord.rs:226-242 test_grlex *)
Definition test_grlex (m : mode) : res unit := all [
  ord_is (grlex_cmp m) Eq [([0;0;0],[0;0;0]); ([1;0;0],[1;0;0]); ([1;2;3],[1;2;3]); ([0;0;1],[0;0;1])];
  ord_is (grlex_cmp m) Lt [([2;2;0],[1;1;5]); ([0;1;1],[1;1;0]); ([0;3;0],[1;0;2])];
  ord_is (grlex_cmp m) Gt [([1;0;0],[0;1;0]); ([2;2;0],[0;0;1]); ([0;0;2],[1;0;0]); ([3;0;0],[1;0;2])]].
(** ord.rs:245-262 test_grevlex *)
Definition test_grevlex (m : mode) : res unit := all [
  ord_is (grevlex_cmp m) Eq [([0;0;0],[0;0;0]); ([1;0;0],[1;0;0]); ([1;2;3],[1;2;3]); ([0;0;1],[0;0;1])];
  ord_is (grevlex_cmp m) Lt [([2;2;0],[1;1;5]); ([1;0;0],[0;1;1])];
  ord_is (grevlex_cmp m) Gt [([2;2;0],[0;0;1]); ([0;0;2],[1;0;0]); ([0;3;0],[1;0;1]); ([1;0;0],[0;1;0])]].
Example test_orders_pass : forall m, all [test_grad m; test_lex; test_revlex; test_grlex m; test_grevlex m] = Ok tt.
Proof. destruct m; reflexivity. Qed.

(** ** linalg/mat.rs *)
Section MatTests.
Context (e : fenv).
Notation F := (float_impl binary64 e).
(** a float literal with an integer value *)
Definition flit (z : Z) : F := binary_normalize 53 1024 z 0 false.
(** mat.rs:415-424 the macro mat! *)
Definition fmat (n m : nat) (l : list Z) : mat F := mat_new n m (map flit l).
Definition same (x : res (mat F)) (y : mat F) : res unit := a <- x ;; assert (mat_eqb a y).
(** mat.rs:442-486 test_matrix_operations *)
Definition test_matrix_operations : res unit :=
  let mat1 := fmat 3 4 [0;1;2;3; 4;5;6;7; 8;9;10;11]%Z in
  let mat2 := fmat 3 4 [1;-1;-2;-3; -4;-5;-6;-7; -8;-9;-10;-11]%Z in
  let mat3 := fmat 3 4 [1;0;0;0; 0;0;0;0; 0;0;0;0]%Z in
  let mat4 := fmat 3 3 [1;0;0; 0;1;0; 0;0;1]%Z in
  let mat5 := fmat 4 1 [4;3;2;1]%Z in
  let mat6 := fmat 3 1 [10;50;90]%Z in
  let mat7 := fmat 3 1 [1;5;9]%Z in
  all [same (mat_add mat1 mat2) mat3; same (mat_mul mat4 mat1) mat1; same (mat_mul mat4 mat2) mat2;
       same (mat_mul mat1 mat5) mat6; same (mat_mul_scalar mat7 (flit 10)) mat6].
(** mat.rs:489-535 test_matrix_constructions *)
Definition test_matrix_constructions : res unit :=
  let mat1 := fmat 3 4 [1;0;0;0; 0;2;0;0; 0;0;3;0]%Z in
  let mat2 := fmat 4 3 [1;0;0; 0;2;0; 0;0;3; 0;0;0]%Z in
  let mat3 := fmat 4 4 [0;1;0;0; 1;0;0;0; 0;0;1;0; 0;0;0;1]%Z in
  let mat4 := fmat 4 4 [1;0;0;0; 0;1;0;0; 2;0;1;0; 0;0;0;1]%Z in
  all [same (mat_transpose mat1) mat2; same (mat_transpose mat2) mat1; same (Ok (mat_permutation 4 0 1)) mat3;
       same (Ok (mat_replacement 4 0 2 (flit 2))) mat4].
Example test_matrices_pass : all [test_matrix_operations; test_matrix_constructions] = Ok tt.
Proof. reflexivity. Qed.
(** mat.rs:427-439 test_matrix_fmt_display, for any Debug impl of f64 that prints 0.0, 1.0, .. as the literals of the test *)
Definition test_matrix_fmt_display (show : F -> chars) : res unit :=
  s <- mat_display show (fmat 3 4 [0;1;2;3; 4;5;6;7; 8;9;10;11]%Z) ;;
  let nl := [10%Z] in
  assert (if list_eq_dec Z.eq_dec s (nl ++ str "[0.0, 1.0, 2.0, 3.0]" ++ nl ++ str "[4.0, 5.0, 6.0, 7.0]" ++ nl ++ str "[8.0, 9.0, 10.0, 11.0]")
          then true else false).
Example test_display_passes : forall show, (forall z, (0 <= z <= 11)%Z -> show (flit z) = (int_display z ++ str ".0")%list) ->
  test_matrix_fmt_display show = Ok tt.
Proof.
  intros show H. unfold test_matrix_fmt_display.
  assert (D : mat_display show (fmat 3 4 [0;1;2;3; 4;5;6;7; 8;9;10;11]%Z) = Ok (10%Z ::
      debug_list show (map flit [0;1;2;3]%Z) ++ 10%Z :: debug_list show (map flit [4;5;6;7]%Z) ++ 10%Z :: debug_list show (map flit [8;9;10;11]%Z))%list).
  { unfold mat_display. unfold fmat. cbn -[flit debug_list]. rewrite <- !app_assoc. reflexivity. }
  rewrite D. cbn [bind]. unfold debug_list. cbn [map]. rewrite !H by lia. reflexivity.
Qed.
End MatTests.
(** mat.rs:538-565 test_matrix_operations_fractions *)
Definition test_matrix_operations_fractions : res unit :=
  let q (a b : Z) : res (rat_impl Debug) := rat_new Debug a b in
  e8 <- mapM (fun p => q (fst p) (snd p)) [(1,2);(1,3);(1,4);(1,5)]%Z ;;
  e9 <- mapM (fun p => q (fst p) (snd p)) [(4,1);(15,1)]%Z ;;
  e10 <- mapM (fun p => q (fst p) (snd p)) [(7,1);(4,1)]%Z ;;
  x <- mat_mul (mat_new 2 2 e8) (mat_new 2 1 e9) ;; assert (mat_eqb x (mat_new 2 1 e10)).
Example test_fractions_passes : test_matrix_operations_fractions = Ok tt.
Proof. reflexivity. Qed.

(** ** linalg/algorithm.rs *)
Section AlgTests.
Context {F : FieldImpl} (T : StabImpl F).
Notation mat := (mat F).
(** algorithm.rs:328-352 the body of the loop of test_lu; the message of a failing assertion is not computed *)
Definition lu_check (a : mat) : res unit :=
  '(p, l, u) <- mat_lu T a ;;
  pt <- mat_transpose p ;; x <- mat_mul pt l ;; prod <- mat_mul x u ;;
  b <- mat_is_lower l ;; _ <- assert b ;;
  b <- mat_is_upper u ;; _ <- assert b ;;
  b <- mat_epsilon_equals T a prod ;; assert b.
(** algorithm.rs:355-376 test_row_echelon *)
Definition row_echelon_check (a : mat) : res unit :=
  s <- mat_row_echelon T a ;;
  '(p, l, u) <- mat_lu T a ;;
  b <- mat_epsilon_equals T u (fb s) ;; _ <- assert b ;;
  prod <- mat_mul (fp s) a ;;
  b <- mat_epsilon_equals T prod (fb s) ;; assert b.
(** algorithm.rs:380-388 is_col_cleared, a function of the test module *)
Fixpoint col_cleared_from (a : mat) (c pivot_r : nat) (rows : list nat) : res bool :=
  match rows with
  | [] => Ok true
  | r :: rows' =>
      if r =? pivot_r then col_cleared_from a c pivot_r rows'
      else x <- mget a r c ;; if feps T x f0 then col_cleared_from a c pivot_r rows' else Ok false
  end.
Definition is_col_cleared (a : mat) (c pivot_r : nat) : res bool := col_cleared_from a c pivot_r (seq 0 (mrows a)).
(** the cast "as i32" *)
Definition as_i32 (n : nat) : Z := ((Z.of_nat n + 2 ^ 31) mod 2 ^ 32 - 2 ^ 31)%Z.
(** algorithm.rs:390-409 is_rref, a function of the test module *)
Fixpoint is_rref_from (a : mat) (prev_col : Z) (rows : list nat) : res bool :=
  match rows with
  | [] => Ok true
  | r :: rows' =>
      o <- first_nonzero T a r ;;
      match o with
      | Some c =>
          b <- is_col_cleared a c r ;;
          if negb b then Ok false
          else if (as_i32 c <=? prev_col)%Z then Ok false
          else is_rref_from a (as_i32 c) rows'
      | None => is_rref_from a (as_i32 (mcols a)) rows'
      end
  end.
Definition is_rref (a : mat) : res bool := is_rref_from a (-1)%Z (seq 0 (mrows a)).
(** algorithm.rs:413-430 test_rref *)
Definition rref_check (a : mat) : res unit :=
  s0 <- mat_row_echelon T a ;; s <- form_to_rref T s0 ;;
  prod <- mat_mul (fp s) a ;;
  b <- mat_epsilon_equals T prod (fb s) ;; _ <- assert b ;;
  b <- is_rref (fb s) ;; assert b.
(** algorithm.rs:433-461 test_compute_kernel *)
Definition kernel_check (a : mat) : res unit :=
  s0 <- mat_row_echelon T a ;;
  nullity <- form_nullity T s0 ;;
  s <- form_to_rref T s0 ;;
  basis <- compute_kernel T s ;;
  _ <- for_each (fun v => prod <- mat_mul a v ;;
                          b <- mat_epsilon_equals T prod (mat_zero (mrows prod) (mcols prod)) ;; assert b) basis ;;
  kernel_mat <- mat_from_row_vectors basis ;;
  s1 <- mat_row_echelon T kernel_mat ;;
  r <- form_rank T s1 ;; assert (r =? nullity).
(** the loops: every matrix of mat_iterator (util.rs:56-92); [fuel] bounds the number of matrices *)
Definition alg_test (m : mode) (fuel : nat) (body : mat -> res unit) (rows cols : nat) (values : list F) : res unit :=
  mats <- mat_iterator_collect m 64 fuel rows cols values 0 ;; for_each body mats.
End AlgTests.
(** the four tests for the entries 0.0, 1.0, 2.0 and 2 x 3 matrices (the crate runs them for 3 x 4) *)
Definition alg_tests_2_3 : res unit :=
  let e := mkenv (fun x _ => x) false in
  let T := float_stab binary64 e in
  let values := [flit e 0; flit e 1; flit e 2] in
  all [alg_test Debug 730 (lu_check T) 2 3 values; alg_test Debug 730 (row_echelon_check T) 2 3 values;
       alg_test Debug 730 (rref_check T) 2 3 values; alg_test Debug 730 (kernel_check T) 2 3 values].
Example alg_tests_2_3_pass : alg_tests_2_3 = Ok tt.
Proof. vm_compute. reflexivity. Qed.

(** ** poly/comp.rs *)
Section CompTests.
Context (m : mode) {F : FieldImpl} (O : ord_impl).
Notation poly := (poly F).
(** == of slices of terms *)
Fixpoint terms_eqb (p q : poly) : bool :=
  match p, q with [], [] => true | s :: p', t :: q' => term_eqb s t && terms_eqb p' q' | _, _ => false end.
(** comp.rs:361-363 poly_assert_eq *)
Definition poly_assert_eq (f1 f2 : poly) : res unit :=
  s1 <- sort_terms O f1 ;; s2 <- sort_terms O f2 ;; assert (terms_eqb s1 s2).
(** comp.rs:366-370 test_result_equality; zip_eq panics after the shorter list if the lengths differ *)
Definition division_check (fuel : nat) (f : poly) (g : list poly) : res unit :=
  '(r, q) <- divide m O fuel f g ;;
  f2 <- foldM (fun acc p => x <- poly_mul m (fst p) (snd p) ;; poly_add acc x) (combine q g) r ;;
  _ <- assert (length q =? length g) ;;
  poly_assert_eq f f2.
End CompTests.
(** comp.rs:343-358 polys: all polynomials in [vars] variables of total degree at most max_deg with coefficients
    0, .., max_coef; the u8 overflow of total_deg does not occur for the arguments used *)
Fixpoint multi_product {A} (l : list (list A)) : list (list A) :=
  match l with [] => [[]] | x :: l' => flat_map (fun a => map (cons a) (multi_product l')) x end.
Definition polys (e : fenv) (vars max_deg max_coef : nat) : res (list (poly (float_impl binary64 e))) :=
  let degs := map mdeg_from_vec (multi_product (repeat (rev (seq 0 (S max_deg))) vars)) in
  ds <- mapM (fun d => t <- mdeg_total_deg Debug d ;; Ok (d, t)) degs ;;
  let ds := map fst (filter (fun p => snd p <=? max_deg) ds) in
  let choices := map (fun d => map (fun k => term_new (flit e (Z.of_nat k)) d) (seq 0 (S max_coef))) ds in
  Ok (map (filter (fun t => negb (term_is_zero t))) (multi_product choices)).
(** comp.rs:334-341 division: dividends in polys(2, d, 1), divisors in polys(2, 1, 2) (the crate has d = 3) *)
Definition test_division (d : nat) : res unit :=
  let e := mkenv (fun x _ => x) false in
  fs <- polys e 2 d 1 ;; gs <- polys e 2 1 2 ;;
  for_each (fun f => for_each (fun g1 => for_each (fun g2 => division_check Debug lex_cmp 50 f [g1; g2]) gs) gs) fs.
Example test_division_1_passes : test_division 1 = Ok tt.
Proof. vm_compute. reflexivity. Qed.
(** comp.rs:374-425 reduction and buchberger assert nothing; what they print is determined by the following values *)
Section CompQ.
Notation R := (rat_impl Debug).
Definition cq (z : Z) : res (poly R) := q <- rat_new Debug z 1 ;; Ok (poly_from_coef (q : R)).
Definition xq (d : nat) : res (poly R) := Ok (macro_var Debug Vx d).
Definition yq (d : nat) : res (poly R) := Ok (macro_var Debug Vy d).
Definition qmul (a b : res (poly R)) : res (poly R) := p <- a ;; q <- b ;; poly_mul Debug p q.
Definition qadd (a b : res (poly R)) : res (poly R) := p <- a ;; q <- b ;; poly_add p q.
Definition qsub (a b : res (poly R)) : res (poly R) := p <- a ;; q <- b ;; poly_sub p q.
Infix "*" := qmul. Infix "+" := qadd. Infix "-" := qsub.
(** a polynomial from numerators, denominators and degrees *)
Definition qp (l : list (Z * Z * mdeg)) : poly R := map (fun t => @mkterm R (mkrat (fst (fst t)) (snd (fst t))) (snd t)) l.
Definition print_buchberger (l : list (res (poly R))) : res (list (poly R)) := gs <- mapM (fun p => p) l ;; buchberger_algorithm Debug lex_cmp 60 gs.
(** x + y, y^4 - y^3 - 1 *)
Example test_buchberger_1 : print_buchberger [xq 3 * yq 1 - xq 1 * yq 2 + cq 1; xq 2 * yq 2 - yq 3 - cq 1] =
  Ok [qp [(1, 1, [1]%nat); (1, 1, [0; 1]%nat)]; qp [(1, 1, [0; 4]%nat); (-1, 1, [0; 3]%nat); (-1, 1, [])]]%Z.
Proof. reflexivity. Qed.
(** y^5 - y^2, x^2 + x y^2 + y^4 *)
Example test_buchberger_2 : print_buchberger [xq 2 + xq 1 * yq 5 + yq 4; xq 1 * yq 6 - xq 1 * yq 3 + yq 5 - yq 2; xq 1 * yq 5 - xq 1 * yq 2] =
  Ok [qp [(1, 1, [0; 5]%nat); (-1, 1, [0; 2]%nat)]; qp [(1, 1, [2]%nat); (1, 1, [1; 2]%nat); (1, 1, [0; 4]%nat)]]%Z.
Proof. reflexivity. Qed.
End CompQ.
