(** * Model of src/linalg/algorithm.rs: elimination. *)
From Verif Require Import Base FieldIface UtilModel MatModel.

Section Alg.
Context {F : FieldImpl} (T : StabImpl F).
Notation mat := (mat F).

(** algorithm.rs:16-26 get_stable_column_index_under_row.  The column is collected before it is
    skipped; the Rust iterator also computes the skipped entries. *)
Definition stable_column_index (a : mat) (c r : nat) : res (option (nat * F)) :=
  col <- mat_col_list a c ;;
  i <- get_max_index (fstab T) (skipn r col) ;;
  x <- mget a (i + r) c ;;
  Ok (if feps T x f0 then None else Some (i + r, x)).

(** algorithm.rs:32-37 index_of_first_nonzero_entry *)
Definition first_nonzero (a : mat) (r : nat) : res (option nat) :=
  v <- mat_get_row a r ;;
  Ok (position (fun x => negb (feps T x f0)) (ments v)).

(** algorithm.rs:40-50 zero_rows *)
Definition zero_rows (a : mat) : res nat :=
  foldM (fun k r => o <- first_nonzero a r ;; Ok (match o with None => k + 1 | Some _ => k end))
        (seq 0 (mrows a)) 0.

(** algorithm.rs:55-62 permute_under_diagonal *)
Definition permute_under_diagonal (a : mat) (src target : nat) : res mat :=
  foldM (fun a c => mat_swap a (src, c) (target, c)) (seq 0 src) a.

(** Vec::swap *)
Definition list_swap {A : Type} (l : list A) (i j : nat) : res (list A) :=
  x <- vget l i ;; y <- vget l j ;; l1 <- vset l i y ;; vset l1 j x.

(** algorithm.rs:67-77 LUDecomposition(Internal) *)
Record lu_state : Type := mklu { lu_p : list nat; lu_l : mat; lu_u : mat }.

(** algorithm.rs:81-85 permute *)
Definition lu_permute (s : lu_state) (src target : nat) : res lu_state :=
  p <- list_swap (lu_p s) src target ;;
  u <- mat_permute_rows (lu_u s) src target ;;
  l <- permute_under_diagonal (lu_l s) src target ;;
  Ok (mklu p l u).
(** algorithm.rs:87-90 scale_row *)
Definition lu_scale_row (s : lu_state) (r : nat) (scalar : F) : res lu_state :=
  l <- mset (lu_l s) r r scalar ;;
  i <- fdiv f1 scalar ;;
  u <- mat_scale_row (lu_u s) r i ;;
  Ok (mklu (lu_p s) l u).
(** algorithm.rs:92-98 replace_col_under_row *)
Definition lu_replace_col_under_row (s : lu_state) (r c : nat) : res lu_state :=
  foldM (fun s r2 =>
      x <- mget (lu_u s) r2 c ;;
      nx <- fsub f0 x ;;
      u <- mat_replace_row (lu_u s) r r2 nx ;;
      l <- mset (lu_l s) r2 r x ;;
      Ok (mklu (lu_p s) l u))
    (seq (r + 1) (mrows (lu_u s) - (r + 1))) s.

(** algorithm.rs:128-141 one iteration of the loop over columns; the counter [r] only stops growing
    (after [break] nothing changes any more) *)
Definition lu_step (n : nat) (s : nat * lu_state) (c : nat) : res (nat * lu_state) :=
  let '(r, lu) := s in
  if n <=? r then Ok (r, lu)
  else
    o <- stable_column_index (lu_u lu) c r ;;
    match o with
    | None => Ok (r, lu)
    | Some (si, x) =>
        lu1 <- lu_permute lu r si ;;
        lu2 <- lu_scale_row lu1 r x ;;
        lu3 <- lu_replace_col_under_row lu2 r c ;;
        Ok (r + 1, lu3)
    end.
(** algorithm.rs:115-149 lu *)
Definition mat_lu (a : mat) : res (mat * mat * mat) :=
  s <- foldM (lu_step (mrows a)) (seq 0 (mcols a))
             (0, mklu (seq 0 (mrows a)) (mat_identity (mrows a)) a) ;;
  let lu := snd s in
  p <- mat_permutation_from_vec (lu_p lu) ;;
  Ok (p, lu_l lu, lu_u lu).

(** algorithm.rs:153-163 RowEquivalentForm (without the reference to the original) *)
Record form : Type := mkform { fp : mat; fb : mat }.

(** algorithm.rs:167-175 permute_rows, scale_row *)
Definition form_permute_rows (s : form) (r1 r2 : nat) : res form :=
  p <- mat_permute_rows (fp s) r1 r2 ;; b <- mat_permute_rows (fb s) r1 r2 ;; Ok (mkform p b).
Definition form_scale_row (s : form) (r : nat) (scalar : F) : res form :=
  p <- mat_scale_row (fp s) r scalar ;; b <- mat_scale_row (fb s) r scalar ;; Ok (mkform p b).
(** algorithm.rs:179-196 replace_col_under_row, replace_col_above_row *)
Definition form_replace (s : form) (r c : nat) (rows : list nat) : res form :=
  foldM (fun s r2 =>
      x <- mget (fb s) r2 c ;;
      nx <- fsub f0 x ;;
      p <- mat_replace_row (fp s) r r2 nx ;;
      nx' <- fsub f0 x ;;
      b <- mat_replace_row (fb s) r r2 nx' ;;
      Ok (mkform p b)) rows s.
Definition form_replace_under (s : form) (r c : nat) : res form :=
  form_replace s r c (seq (r + 1) (mrows (fb s) - (r + 1))).
Definition form_replace_above (s : form) (r c : nat) : res form :=
  form_replace s r c (seq 0 r).

(** algorithm.rs:205-212 rank, nullity *)
Definition form_rank (s : form) : res nat :=
  z <- zero_rows (fb s) ;;
  if z <=? mrows (fb s) then Ok (mrows (fb s) - z) else Panic Overflow.
Definition form_nullity (s : form) : res nat :=
  k <- form_rank s ;;
  if k <=? mcols (fb s) then Ok (mcols (fb s) - k) else Panic Overflow.
(** the same without overflow checks: a usize of 64 bits wraps *)
Definition form_nullity_release (s : form) : res Z :=
  k <- form_rank s ;;
  Ok ((Z.of_nat (mcols (fb s)) - Z.of_nat k) mod 2 ^ 64)%Z.

(** algorithm.rs:229-243 *)
Definition ech_step (n : nat) (s : nat * form) (c : nat) : res (nat * form) :=
  let '(r, f) := s in
  if n <=? r then Ok (r, f)
  else
    o <- stable_column_index (fb f) c r ;;
    match o with
    | None => Ok (r, f)
    | Some (si, x) =>
        g1 <- form_permute_rows f r si ;;
        i <- fdiv f1 x ;;
        g2 <- form_scale_row g1 r i ;;
        g3 <- form_replace_under g2 r c ;;
        Ok (r + 1, g3)
    end.
(** algorithm.rs:219-247 row_echelon *)
Definition mat_row_echelon (a : mat) : res form :=
  s <- foldM (ech_step (mrows a)) (seq 0 (mcols a)) (0, mkform (mat_identity (mrows a)) a) ;;
  Ok (snd s).

(** algorithm.rs:254-270 to_rref *)
Definition form_to_rref (s : form) : res form :=
  foldM (fun s r =>
      o <- first_nonzero (fb s) r ;;
      match o with Some c => form_replace_above s r c | None => Ok s end)
    (rev (seq 1 (mrows (fb s) - 1))) s.

(** algorithm.rs:280-284 and 309-313: the set of bound variables, as the list of insertions *)
Definition bound_variables (b : mat) : res (list nat) :=
  os <- mapM (fun r => first_nonzero b r) (seq 0 (mrows b)) ;;
  Ok (flat_map (fun o => match o with Some c => [c] | None => [] end) os).

(** algorithm.rs:276-302 compute_kernel *)
Definition kernel_vector (b : mat) (c : nat) : res mat :=
  foldM (fun v r =>
      o <- first_nonzero b r ;;
      match o with
      | Some c2 =>
          if c2 <? c then x <- mget b r c ;; y <- fsub f0 x ;; mset v c2 0 y else Ok v
      | None => Ok v
      end) (seq 0 (mrows b)) (mat_e c (mcols b)).
Definition compute_kernel (s : form) : res (list mat) :=
  bound <- bound_variables (fb s) ;;
  mapM (kernel_vector (fb s)) (filter (fun c => negb (existsb (Nat.eqb c) bound)) (seq 0 (mcols (fb s)))).

(** algorithm.rs:305-317 compute_range: a HashSet is iterated in an unspecified order, so the order in
    which the bound variables (without repetition) come out is a parameter *)
Definition range_order_ok (s : form) (order : list nat) : Prop :=
  exists bound, bound_variables (fb s) = Ok bound /\ NoDup order /\ forall c, In c order <-> In c bound.
Definition compute_range (original : mat) (order : list nat) : res (list mat) :=
  mapM (fun c => mat_get_col original c) order.

End Alg.
