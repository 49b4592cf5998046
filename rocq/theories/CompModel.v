(** * Model of src/poly/comp.rs: Computer<F, O>. *)
From Verif Require Import Base FieldIface MDegModel OrdModel PolyModel.

Section Comp.
Context (m : mode) {F : FieldImpl} (O : ord_impl).
Notation term := (term F).
Notation poly := (poly F).

Definition term_cmp (s t : term) : res comparison := O (tdeg s) (tdeg t).

(** comp.rs:20-29 sort_terms *)
Definition sort_terms (f : poly) : res poly := sort_by term_cmp f.

(** comp.rs:36-38 leading_term *)
Definition leading_term (f : poly) : res (option term) := max_by term_cmp f.

(** comp.rs:43-45 leading_coef *)
Definition leading_coef (f : poly) : res (option F) :=
  o <- leading_term f ;; Ok (option_map coef o).

(** comp.rs:74-89 the inner [for (g, q) in divs.iter().zip(quotients.iter_mut())] loop up to
    [continue 'outer]: returns the updated quotients, the factor [a] and the divisor [g] of the
    first divisor whose leading term divides [lt_f]. *)
Fixpoint try_divisors (lt_f : term) (divs quots : list poly) : res (option (list poly * term * poly)) :=
  match divs, quots with
  | g :: divs', q :: quots' =>
      let skip :=
        r <- try_divisors lt_f divs' quots' ;;
        Ok (match r with
            | None => None
            | Some (qs, a, g') => Some (q :: qs, a, g')
            end) in
      lg <- leading_term g ;;
      match lg with
      | None => skip
      | Some lt_g =>
          d <- term_try_div lt_f lt_g ;;
          match d with
          | None => skip
          | Some a => q' <- poly_add_term q a ;; Ok (Some (q' :: quots', a, g))
          end
      end
  | _, _ => Ok None
  end.

(** [Vec::pop] on a list: the remaining list and the last element *)
Definition vec_pop {A : Type} (l : list A) : list A * option A :=
  match rev l with
  | [] => ([], None)
  | x :: r => (rev r, Some x)
  end.

(** comp.rs:71-106 the 'outer while-let loop *)
Fixpoint divide_loop (fuel : nat) (f : poly) (divs quots : list poly) (rem : poly)
  : res (poly * list poly) :=
  lt <- leading_term f ;;
  match lt with
  | None => Ok (rem, quots)
  | Some lt_f =>
      match fuel with
      | 0 => NoFuel
      | S fuel' =>
          r <- try_divisors lt_f divs quots ;;
          match r with
          | Some (quots', a, g) =>
              ag <- term_mul_poly m a g ;;
              f' <- poly_sub f ag ;;
              divide_loop fuel' f' divs quots' rem
          | None =>
              fs <- sort_by term_cmp f ;;
              match vec_pop fs with
              | (f', Some l) => rem' <- poly_add_term rem l ;; divide_loop fuel' f' divs quots rem'
              | (f', None) => divide_loop fuel' f' divs quots rem
              end
          end
      end
  end.

(** comp.rs:60-107 divide: [(remainder, quotients)] *)
Definition divide (fuel : nat) (f : poly) (divs : list poly) : res (poly * list poly) :=
  divide_loop fuel f divs (repeat poly_zero (length divs)) poly_zero.

(** comp.rs:118-140 monic_lcm *)
Definition mdeg_lcm (a b : mdeg) : mdeg :=
  map (fun p => match p with Both x y => Nat.max x y | Left x => x | Right y => y end)
      (zip_longest a b).
Definition monic_lcm (s t : term) : term :=
  if term_is_zero s || term_is_zero t then term_zero
  else term_monic (mdeg_lcm (tdeg s) (tdeg t)).

(** comp.rs:147-153 try_reduce (the S-polynomial); [?] returns None early *)
Definition try_reduce (f g : poly) : res (option poly) :=
  lf <- leading_term f ;;
  match lf with None => Ok None | Some lt_f =>
  lg <- leading_term g ;;
  match lg with None => Ok None | Some lt_g =>
  let lcm := monic_lcm lt_f lt_g in
  qf <- term_try_div lcm lt_f ;;
  match qf with None => Ok None | Some a =>
  af <- term_mul_poly m a f ;;
  qg <- term_try_div lcm lt_g ;;
  match qg with None => Ok None | Some b =>
  bg <- term_mul_poly m b g ;;
  s <- poly_sub af bg ;;
  Ok (Some s)
  end end end end.

(** comp.rs:269-271 pairs_iter, also comp.rs:163 *)
Definition pairs_iter (n : nat) : list (nat * nat) :=
  filter (fun p => negb (fst p =? snd p)) (cartesian (seq 0 n) (seq 0 n)).

(** comp.rs:160-178 buchberger_criterion *)
Fixpoint criterion_loop (fuel : nat) (gens : list poly) (ps : list (nat * nat)) : res bool :=
  match ps with
  | [] => Ok true
  | (i, j) :: ps' =>
      gi <- vget gens i ;;
      gj <- vget gens j ;;
      o <- try_reduce gi gj ;;
      match o with
      | None => Panic Explicit
      | Some h =>
          '(r, _) <- divide fuel h gens ;;
          if poly_is_zero r then criterion_loop fuel gens ps' else Ok false
      end
  end.
Definition buchberger_criterion (fuel : nat) (gens : list poly) : res bool :=
  criterion_loop fuel gens (pairs_iter (length gens)).

(** comp.rs:185-205 the inner [for j in 0..i] of buchberger_extend: [Some r'] is the normalised
    remainder to be pushed *)
Fixpoint extend_inner (fuel : nat) (gens : list poly) (i : nat) (js : list nat) : res (option poly) :=
  match js with
  | [] => Ok None
  | j :: js' =>
      gi <- vget gens i ;;
      gj <- vget gens j ;;
      o <- try_reduce gi gj ;;
      s <- unwrap o ;;
      '(r, _) <- divide fuel s gens ;;
      lc <- leading_coef r ;;
      match lc with
      | Some c => r' <- poly_div_scalar m r c ;; Ok (Some r')
      | None => extend_inner fuel gens i js'
      end
  end.

(** comp.rs:181-208 buchberger_extend; [dfuel] is the fuel handed to each division *)
Fixpoint extend_loop (dfuel fuel : nat) (gens : list poly) (i : nat) : res (list poly) :=
  if i <? length gens then
    match fuel with
    | 0 => NoFuel
    | S fuel' =>
        o <- extend_inner dfuel gens i (seq 0 i) ;;
        match o with
        | Some r => extend_loop dfuel fuel' (gens ++ [r]) 0
        | None => extend_loop dfuel fuel' gens (i + 1)
        end
    end
  else Ok gens.
Definition buchberger_extend (fuel : nat) (gens : list poly) : res (list poly) :=
  extend_loop fuel fuel gens 0.

(** comp.rs:216-226 one pass of buchberger_minimize: the first [i] whose leading term is divisible
    by another one's *)
Fixpoint minimize_find (gens : list poly) (ps : list (nat * nat)) : res (option nat) :=
  match ps with
  | [] => Ok None
  | (i, j) :: ps' =>
      gj <- vget gens j ;;
      lj <- leading_term gj ;;
      tj <- unwrap lj ;;
      gi <- vget gens i ;;
      li <- leading_term gi ;;
      ti <- unwrap li ;;
      if term_divides tj ti then Ok (Some i) else minimize_find gens ps'
  end.
(** comp.rs:213-229 buchberger_minimize *)
Fixpoint minimize_loop (fuel : nat) (gens : list poly) : res (list poly) :=
  match fuel with
  | 0 => NoFuel
  | S fuel' =>
      o <- minimize_find gens (pairs_iter (length gens)) ;;
      match o with
      | Some i => minimize_loop fuel' (list_remove gens i)
      | None => Ok gens
      end
  end.
Definition buchberger_minimize (fuel : nat) (gens : list poly) : res (list poly) :=
  minimize_loop fuel gens.

(** comp.rs:238-252: does LT(g_j) divide some term of g_i?  (the leading term of g_j is recomputed
    for every term) *)
Fixpoint any_term_divisible (gj : poly) (ts : list term) : res bool :=
  match ts with
  | [] => Ok false
  | t :: ts' =>
      lj <- leading_term gj ;;
      tj <- unwrap lj ;;
      if term_divides tj t then Ok true else any_term_divisible gj ts'
  end.
Fixpoint reduce_find (gens : list poly) (ps : list (nat * nat)) : res (option nat) :=
  match ps with
  | [] => Ok None
  | (i, j) :: ps' =>
      gi <- vget gens i ;;
      gj <- (match gi with [] => Ok poly_zero | _ => vget gens j end) ;;
      b <- any_term_divisible gj gi ;;
      if b then Ok (Some i) else reduce_find gens ps'
  end.
(** comp.rs:234-256 buchberger_reduce *)
Fixpoint reduce_loop (dfuel fuel : nat) (gens : list poly) : res (list poly) :=
  match fuel with
  | 0 => NoFuel
  | S fuel' =>
      o <- reduce_find gens (pairs_iter (length gens)) ;;
      match o with
      | Some i =>
          g <- vget gens i ;;
          let rest := list_remove gens i in
          '(g_rem, _) <- divide dfuel g rest ;;
          reduce_loop dfuel fuel' (rest ++ [g_rem])
      | None => Ok gens
      end
  end.
Definition buchberger_reduce (fuel : nat) (gens : list poly) : res (list poly) :=
  reduce_loop fuel fuel gens.

(** comp.rs:259-263 buchberger_algorithm *)
Definition buchberger_algorithm (fuel : nat) (gens : list poly) : res (list poly) :=
  g1 <- buchberger_extend fuel gens ;;
  g2 <- buchberger_minimize fuel g1 ;;
  buchberger_reduce fuel g2.

End Comp.
