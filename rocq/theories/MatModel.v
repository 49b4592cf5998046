(** * Model of src/linalg/mat.rs: Mat<F>.

    Indices and dimensions are unbounded naturals; the flat index [r * cols + c] is checked against
    the length of the entry vector, as Vec indexing does.  (An index expression exceeding usize would
    be reported as overflow instead of out of bounds; both are panics.) *)
From Verif Require Import Base FieldIface UtilModel.

Section Mat.
Context {F : FieldImpl}.

(** mat.rs:9-14 *)
Record mat : Type := mkmat { ments : list F; mrows : nat; mcols : nat }.

(** mat.rs:17-23 Mat::new: no check that the dimensions match *)
Definition mat_new (rows cols : nat) (entries : list F) : mat := mkmat entries rows cols.

(** derived PartialEq: mat.rs:9 *)
Fixpoint list_feqb (l l' : list F) : bool :=
  match l, l' with
  | [], [] => true
  | x :: t, y :: t' => feqb x y && list_feqb t t'
  | _, _ => false
  end.
Definition mat_eqb (a b : mat) : bool :=
  list_feqb (ments a) (ments b) && (mrows a =? mrows b) && (mcols a =? mcols b).

(** mat.rs:199-209 get_unchecked / get_mut_unchecked; 311-323 Index / IndexMut *)
Definition mget (a : mat) (r c : nat) : res F := vget (ments a) (r * mcols a + c).
Definition mset (a : mat) (r c : nat) (x : F) : res mat :=
  es <- vset (ments a) (r * mcols a + c) x ;; Ok (mkmat es (mrows a) (mcols a)).

(** mat.rs:25-27 swap *)
Definition mat_swap (a : mat) (p q : nat * nat) : res mat :=
  x <- mget a (fst p) (snd p) ;;
  y <- mget a (fst q) (snd q) ;;
  a1 <- mset a (fst p) (snd p) y ;;
  mset a1 (fst q) (snd q) x.

(** the pattern Mat::new(rows, cols, get_box_iter(rows, cols).map(..).collect()) *)
Definition from_fn (rows cols : nat) (f : nat -> nat -> F) : mat :=
  mkmat (map (fun p => f (fst p) (snd p)) (get_box_iter rows cols)) rows cols.
Definition from_fnM (rows cols : nat) (f : nat -> nat -> res F) : res mat :=
  es <- mapM (fun p => f (fst p) (snd p)) (get_box_iter rows cols) ;; Ok (mkmat es rows cols).

(** mat.rs:32-40 identity *)
Definition mat_identity (n : nat) : mat := from_fn n n (fun r c => if r =? c then f1 else f0).
(** mat.rs:42-50 from_col_vectors *)
Definition mat_from_col_vectors (vs : list mat) : res mat :=
  v0 <- vget vs 0 ;;
  from_fnM (mrows v0) (length vs) (fun r c => v <- vget vs c ;; mget v r 0).
(** mat.rs:52-60 from_row_vectors *)
Definition mat_from_row_vectors (vs : list mat) : res mat :=
  v0 <- vget vs 0 ;;
  from_fnM (length vs) (mrows v0) (fun r c => v <- vget vs r ;; mget v c 0).
(** mat.rs:63-71 e *)
Definition mat_e (k n : nat) : mat := mkmat (map (fun r => if r =? k then f1 else f0) (seq 0 n)) n 1.
(** mat.rs:74-80 zero *)
Definition mat_zero (rows cols : nat) : mat := from_fn rows cols (fun _ _ => f0).
(** mat.rs:83-99 scale_mat *)
Definition mat_scale_mat (rows i : nat) (scale : F) : mat :=
  from_fn rows rows (fun r c => if (r =? c) && (r =? i) then scale else if r =? c then f1 else f0).
(** mat.rs:103-120 permutation *)
Definition mat_permutation (rows source target : nat) : mat :=
  from_fn rows rows (fun r c =>
    if ((r =? source) && (c =? target)) || ((c =? source) && (r =? target))
       || ((r =? c) && negb (r =? source) && negb (c =? target))
    then f1 else f0).
(** mat.rs:127-136 permutation_from_vec *)
Definition mat_permutation_from_vec (p : list nat) : res mat :=
  from_fnM (length p) (length p) (fun r c => x <- vget p r ;; Ok (if x =? c then f1 else f0)).
(** mat.rs:140-156 replacement *)
Definition mat_replacement (rows source target : nat) (scalar : F) : mat :=
  from_fn rows rows (fun r c => if (c =? source) && (r =? target) then scalar else if r =? c then f1 else f0).
(** mat.rs:159-168 transpose *)
Definition mat_transpose (a : mat) : res mat :=
  from_fnM (mcols a) (mrows a) (fun c r => mget a r c).

(** mat.rs:172-176 scale_row *)
Definition mat_scale_row (a : mat) (i : nat) (scalar : F) : res mat :=
  foldM (fun a c => x <- mget a i c ;; y <- fmul scalar x ;; mset a i c y) (seq 0 (mcols a)) a.
(** mat.rs:178-184 permute_rows *)
Definition mat_permute_rows (a : mat) (source target : nat) : res mat :=
  foldM (fun a c => temp <- mget a source c ;; y <- mget a target c ;;
                    a1 <- mset a source c y ;; mset a1 target c temp) (seq 0 (mcols a)) a.
(** mat.rs:186-190 replace_row *)
Definition mat_replace_row (a : mat) (source target : nat) (scalar : F) : res mat :=
  foldM (fun a c => t <- mget a target c ;; s <- mget a source c ;;
                    p <- fmul s scalar ;; v <- fadd t p ;; mset a target c v) (seq 0 (mcols a)) a.
(** mat.rs:193-195 scale; 396-400 MulAssign<F> does the same *)
Definition mat_scale (a : mat) (scalar : F) : res mat :=
  es <- mapM (fun x => fmul x scalar) (ments a) ;; Ok (mkmat es (mrows a) (mcols a)).

(** mat.rs:218-225 get_row_iter, get_row_iter_mut: a slice *)
Definition mat_row_slice (a : mat) (r : nat) : res (list F) :=
  if (r + 1) * mcols a <=? length (ments a)
  then Ok (firstn (mcols a) (skipn (r * mcols a) (ments a)))
  else Panic IndexOOB.
(** mat.rs:299-309 From<Iterator>: a column vector *)
Definition mat_from_iter (l : list F) : mat := mkmat l (length l) 1.
(** mat.rs:227-229 get_row *)
Definition mat_get_row (a : mat) (r : nat) : res mat := l <- mat_row_slice a r ;; Ok (mat_from_iter l).
(** mat.rs:231-233 get_col_iter, collected *)
Definition mat_col_list (a : mat) (c : nat) : res (list F) := mapM (fun r => mget a r c) (seq 0 (mrows a)).
(** mat.rs:244-246 get_col *)
Definition mat_get_col (a : mat) (c : nat) : res mat := l <- mat_col_list a c ;; Ok (mat_from_iter l).
(** mat.rs:235-242 get_col_iter_mut: the flat positions of the entries handed out, chunk by chunk.
    chunks_exact_mut panics when the chunk size is zero. *)
Definition mat_col_iter_mut (a : mat) (c : nat) : res (list nat) :=
  if mrows a =? 0 then Panic Explicit
  else mapM (fun k => if c <? mrows a then Ok (k * mrows a + c) else Panic IndexOOB)
            (seq 0 (length (ments a) / mrows a)).

(** mat.rs:248-250 frobenius_norm *)
Definition mat_frobenius (a : mat) : res F :=
  foldM (fun acc x => p <- fmul x x ;; fadd acc p) (ments a) f0.
(** mat.rs:254-259 dot *)
Definition mat_dot (a b : mat) : res F :=
  foldM (fun acc p => q <- fmul (fst p) (snd p) ;; fadd acc q) (combine (ments a) (ments b)) f0.

(** mat.rs:263-265 index_iter *)
Definition mat_index_iter (a : mat) : list (nat * nat) := cartesian (seq 0 (mrows a)) (seq 0 (mcols a)).

(** mat.rs:274-296 is_upper_triangular, is_lower_triangular *)
Fixpoint all_zero_at (a : mat) (ps : list (nat * nat)) : res bool :=
  match ps with
  | [] => Ok true
  | p :: ps' => x <- mget a (fst p) (snd p) ;; if feqb x f0 then all_zero_at a ps' else Ok false
  end.
Definition mat_is_upper (a : mat) : res bool :=
  all_zero_at a (flat_map (fun r => map (fun c => (r, c)) (seq 0 (Nat.min r (mcols a)))) (seq 0 (mrows a))).
Definition mat_is_lower (a : mat) : res bool :=
  all_zero_at a (flat_map (fun r => let s := Nat.min r (mcols a) + 1 in
                                    map (fun c => (r, c)) (seq s (mcols a - s))) (seq 0 (mrows a))).

(** mat.rs:341-359 Add *)
Definition mat_add (a b : mat) : res mat :=
  if (mrows a =? mrows b) && (mcols a =? mcols b) then
    es <- mapM (fun p => fadd (fst p) (snd p)) (combine (ments a) (ments b)) ;;
    Ok (mkmat es (mrows a) (mcols a))
  else Panic Explicit.
(** mat.rs:362-373 Mul<F> *)
Definition mat_mul_scalar (a : mat) (scalar : F) : res mat :=
  es <- mapM (fun x => fmul x scalar) (ments a) ;; Ok (mkmat es (mrows a) (mcols a)).
(** mat.rs:375-394 Mul: row slice zipped with the lazily computed column *)
Definition mat_mul (a b : mat) : res mat :=
  if mcols a =? mrows b then
    from_fnM (mrows a) (mcols b) (fun r c =>
      row <- mat_row_slice a r ;;
      foldM (fun acc p => y <- mget b (snd p) c ;; q <- fmul (fst p) y ;; fadd acc q)
            (combine row (seq 0 (mrows b))) f0)
  else Panic Explicit.
(** mat.rs:402-408 EpsilonEquality *)
Definition mat_epsilon_equals (T : StabImpl F) (a b : mat) : res bool :=
  m1 <- fsub f0 f1 ;;
  nb <- mat_mul_scalar b m1 ;;
  d <- mat_add a nb ;;
  n <- mat_frobenius d ;;
  Ok (feps T n f0).

End Mat.
Arguments mat : clear implicits.

(** util.rs:56-92 MatIterator: the state is [num]; [None] is the end of the iteration *)
Definition mat_iterator_next {F : FieldImpl} (m : mode) (fuel n k : nat) (values : list F) (num : Z)
  : res (Z * option (mat F)) :=
  let len := Z.of_nat (length values) in
  nk <- usz m (Z.of_nat n * Z.of_nat k) ;;
  lim <- usz m (len ^ (nk mod 4294967296))%Z ;;
  if (lim <=? num)%Z then Ok (num, None)
  else
    ds <- num_to_seq m fuel num len ;;
    es <- mapM (fun d => vget values (Z.to_nat d)) ds ;;
    pad <- mapM (fun _ => vget values 0) (seq (length es) (Z.to_nat nk - length es)) ;;
    num' <- usz m (num + 1) ;;
    Ok (num', Some (mkmat (es ++ pad) n k)).

Fixpoint mat_iterator_collect {F : FieldImpl} (m : mode) (dfuel fuel n k : nat) (values : list F) (num : Z)
  : res (list (mat F)) :=
  match fuel with
  | O => NoFuel
  | S fuel' =>
      '(num', o) <- mat_iterator_next m dfuel n k values num ;;
      match o with
      | None => Ok []
      | Some a => l <- mat_iterator_collect m dfuel fuel' n k values num' ;; Ok (a :: l)
      end
  end.
