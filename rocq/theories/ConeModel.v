(** * Model of src/linalg/cone.rs. *)
From Verif Require Import Base FieldIface UtilModel MatModel AlgModel.

(** Itertools::combinations: the sublists with [k] elements, in lexicographic order of positions *)
Fixpoint combinations {A : Type} (k : nat) (l : list A) : list (list A) :=
  match k, l with
  | 0, _ => [[]]
  | S _, [] => []
  | S k', x :: l' => map (cons x) (combinations k' l') ++ combinations k l'
  end.

Section Cone.
Context {F : FieldImpl} (T : StabImpl F).
Notation mat := (mat F).

(** cone.rs:9-21 Cone, Face *)
Record face : Type := mkface { fnormal : mat; fgens : list mat }.
Record cone : Type := mkcone { cgens : list mat; cfacets : list face; corth : list mat; cambient : nat; cdim : nat }.

(** cone.rs:32-33 and 44-45: the reduced form of the matrix with the given rows *)
Definition rows_rref (vs : list mat) : res form :=
  a <- mat_from_row_vectors vs ;; e <- mat_row_echelon T a ;; form_to_rref T e.

(** cone.rs:69-82: the loop over the generators; false stands for [continue 'outer] *)
Fixpoint all_above (gens : list mat) (normal : mat) : res bool :=
  match gens with
  | [] => Ok true
  | g :: gens' =>
      d <- mat_dot g normal ;;
      o <- fpcmp T d f0 ;;
      match o with
      | Some Lt => Ok false
      | None => Ok false
      | Some _ => all_above gens' normal
      end
  end.

(** cone.rs:42-91: one iteration, [k] is dim-1; the result is the facet pushed, if any *)
Definition facet_of (gens : list mat) (k : nat) (subset : list mat) : res (option face) :=
  s <- rows_rref subset ;;
  r <- form_rank T s ;;
  if negb (r =? k) then Ok None
  else
    ker <- compute_kernel T s ;;
    n0 <- vget ker 0 ;;
    g0 <- vget gens 0 ;;
    d <- mat_dot g0 n0 ;;
    o <- fpcmp T d f0 ;;
    match o with
    | None => Ok None
    | Some c =>
        normal <- (match c with
                   | Lt => m1 <- fsub f0 f1 ;; mat_scale n0 m1
                   | _ => Ok n0
                   end) ;;
        b <- all_above gens normal ;;
        Ok (if b then Some (mkface normal subset) else None)
    end.

(** cone.rs:29-101 Cone::new.  The subtraction dim-1 overflows for rank zero; without overflow checks
    it wraps to usize::MAX and the index vector of [combinations] cannot be allocated, which panics as well
    (that panic is not distinguished here).  The loop collects its results instead of pushing them. *)
Definition cone_new (gens : list mat) : res cone :=
  g0 <- vget gens 0 ;;
  s <- rows_rref gens ;;
  dim <- form_rank T s ;;
  orth <- compute_kernel T s ;;
  k <- (if dim =? 0 then Panic Overflow else Ok (dim - 1)) ;;
  os <- mapM (facet_of gens k) (combinations k gens) ;;
  Ok (mkcone gens (flat_map (fun o => match o with Some f => [f] | None => [] end) os) orth (mrows g0) dim).

End Cone.
