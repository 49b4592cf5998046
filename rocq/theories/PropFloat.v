(** * Properties C79 and C80: when computations over f32 and f64 are exact. *)
From Verif Require Import Base BaseLemmas FieldIface RatProofs MDegModel OrdModel PolyModel CompModel MonoSpec OrdProofs PolySpec
  GroebnerSpec PolyProofs UtilModel MatModel AlgModel ConeModel LinSpec RrefSpec MatProofs ConeProofs Param ParamMat Transfer
  FloatModel FloatExact FloatSim PropPoly PropDiv PropGb PropMat PropLin PropCone PropRefine.
From Coq Require Import QArith Qcanon Lia.
Local Open Scope nat_scope.

(** the two primitive types *)
Definition is_fmt (t : fmt) : Prop := t = binary32 \/ t = binary64.
Lemma is_good t : is_fmt t -> good t.
Proof. intros [-> | ->]; [exact good32|exact good64]. Qed.

(** ** C79: one operation *)
(** whenever the mathematical result is a value of the type, it is what the operation returns *)
Theorem C79_operations : forall t x y v w, is_fmt t -> stands t x v -> stands t y w ->
  (representable t (v + w)%Qc -> stands t (SFadd (prec t) (emax t) x y) (v + w)%Qc) /\
  (representable t (v - w)%Qc -> stands t (SFsub (prec t) (emax t) x y) (v - w)%Qc) /\
  (representable t (v * w)%Qc -> stands t (SFmul (prec t) (emax t) x y) (v * w)%Qc) /\
  (w <> 0%Qc -> representable t (v / w)%Qc -> stands t (SFdiv (prec t) (emax t) x y) (v / w)%Qc) /\
  stands t (SFopp x) (- v)%Qc /\
  SFcompare x y = Some (v ?= w)%Qc.
Proof.
  intros t x y v w T X Y. pose proof (is_good t T) as G. refine (conj _ (conj _ (conj _ (conj _ (conj _ _))))).
  - apply add_exact; assumption.
  - apply sub_exact; assumption.
  - apply mul_exact; assumption.
  - intros W. apply div_exact; assumption.
  - apply stands_opp. exact X.
  - apply (compare_exact t); assumption.
Qed.
(** in particular integers up to 2^24 (f32) and 2^53 (f64) *)
Definition intq (n : Z) : Qc := Q2Qc (inject_Z n).
Lemma intq_dy n : intq n = dy n 0.
Proof. apply Q2Qc_eq_iff. unfold dyq. cbn. ring. Qed.
Lemma intq_add a b : (intq a + intq b)%Qc = intq (a + b).
Proof. rewrite !intq_dy. apply dy_add. Qed.
Lemma intq_sub a b : (intq a - intq b)%Qc = intq (a - b).
Proof. unfold Qcminus. rewrite !intq_dy, dy_opp. apply dy_add. Qed.
Lemma intq_mul a b : (intq a * intq b)%Qc = intq (a * b).
Proof. rewrite !intq_dy. apply dy_mul. Qed.
Theorem C79_integers : forall t x y n m, is_fmt t -> stands t x (intq n) -> stands t y (intq m) ->
  ((Z.abs (n + m) <= 2 ^ prec t)%Z -> stands t (SFadd (prec t) (emax t) x y) (intq (n + m))) /\
  ((Z.abs (n - m) <= 2 ^ prec t)%Z -> stands t (SFsub (prec t) (emax t) x y) (intq (n - m))) /\
  ((Z.abs (n * m) <= 2 ^ prec t)%Z -> stands t (SFmul (prec t) (emax t) x y) (intq (n * m))) /\
  (forall k, m <> 0%Z -> n = (k * m)%Z -> (Z.abs k <= 2 ^ prec t)%Z -> stands t (SFdiv (prec t) (emax t) x y) (intq k)).
Proof.
  intros t x y n m T X Y. pose proof (is_good t T) as G.
  assert (R : forall k, (Z.abs k <= 2 ^ prec t)%Z -> representable t (intq k)).
  { intros k K. rewrite intq_dy. apply representable_int; assumption. }
  destruct (C79_operations t x y _ _ T X Y) as (A & B & C & D & _). repeat apply conj.
  - intros H. rewrite <- intq_add. apply A. rewrite intq_add. apply R. exact H.
  - intros H. rewrite <- intq_sub. apply B. rewrite intq_sub. apply R. exact H.
  - intros H. rewrite <- intq_mul. apply C. rewrite intq_mul. apply R. exact H.
  - intros k M E K. assert (N : intq m <> 0%Qc) by (rewrite intq_dy; rewrite dy_zero; exact M).
    assert (Q : (intq n / intq m)%Qc = intq k) by (rewrite E, <- intq_mul; field; exact N).
    rewrite <- Q. apply D; [exact N|]. rewrite Q. apply R. exact K.
Qed.
Theorem C79_all_integers_exist : forall t n, is_fmt t -> (Z.abs n <= 2 ^ prec t)%Z -> exists x, stands t x (intq n).
Proof.
  intros t n T H. rewrite intq_dy. destruct (representable_int t (is_good t T) n H) as (x & V & Fi & E).
  exists x. repeat split; assumption.
Qed.
(** beyond that they are not all representable, and addition is not even injective *)
Theorem C79_integers_refuted : ~ (forall x y n m, stands binary64 x (intq n) -> stands binary64 y (intq m) ->
  stands binary64 (SFadd 53 1024 x y) (intq (n + m))).
Proof.
  intros H. specialize (H (S754_finite false 4503599627370496 1) (S754_finite false 4503599627370496 (-52)) (2 ^ 53)%Z 1%Z).
  assert (X : stands binary64 (S754_finite false 4503599627370496 1) (intq (2 ^ 53)%Z)) by
    (split; [reflexivity|split; [reflexivity|apply Qc_is_canon; reflexivity]]).
  assert (Y : stands binary64 (S754_finite false 4503599627370496 (-52)) (intq 1)) by
    (split; [reflexivity|split; [reflexivity|apply Qc_is_canon; reflexivity]]).
  destruct (H X Y) as (_ & _ & E). apply (f_equal this) in E. discriminate E.
Qed.

(** ** C80: whole runs *)
(** [exact_float t e adm]: float arithmetic which stops at the first result that is rounded or not [adm].
    [any]: no condition; [sizable]: zero or at least EPSILON in magnitude *)
Definition any (x : float) : bool := true.
Definition sizable (t : fmt) (x : float) : bool :=
  match x with S754_finite _ _ _ => negb (SFltb (SFabs x) (fepsilon t)) | _ => true end.
(** valid, finite and sizable inputs *)
Definition fin (t : fmt) (adm : float -> bool) (x : float) : Prop := valid t x /\ finite x = true /\ adm x = true.
Lemma sizable_one t : is_fmt t -> sizable t (fone t) = true.
Proof. intros [-> | ->]; reflexivity. Qed.
Lemma sizable_eps t x : sizable t x = true -> finite x = true -> fval x <> 0%Qc -> SFltb (SFabs x) (fepsilon t) = false.
Proof.
  intros A Fi N. destruct x; try discriminate; [contradiction N; reflexivity|]. unfold sizable in A. apply negb_true_iff in A. exact A.
Qed.

Section Runs.
Context (t : fmt) (e : fenv) (T : is_fmt t).

Section Poly.
Notation X := (exact_float t e any).
Notation F := (float_impl t e).
(** the same value in the primitive type *)
Definition fx (x : X) : F := x.
Definition finX : X -> Prop := fin t any.
Notation W := finX.
Let S : FieldSim X F (xrel t e any) := exact_float_sim t e any (is_good t T) eq_refl eq_refl eq_refl.
Lemma fx_w x : W x -> xrel t e any x (fx x).
Proof. intros H. split; [reflexivity|exact H]. Qed.
Lemma fx_r x y : xrel t e any x y -> y = fx x.
Proof. intros [<- _]. reflexivity. Qed.
Notation pok := (pW W).
Notation pm := (pmap fx).
Let pmp := prel_map fx (xrel t e any) W fx_w.
Let peqn := prel_eq fx (xrel t e any) fx_r.
Let psmp := psrel_map fx (xrel t e any) W fx_w.
Let pseqn := psrel_eq fx (xrel t e any) fx_r.

Theorem C80_polynomials : forall m (p q : poly X) (c : X) (x : list X), pok p -> pok q -> W c -> Forall W x ->
  agrees pm (poly_add p q) (poly_add (pm p) (pm q)) /\
  agrees pm (poly_sub p q) (poly_sub (pm p) (pm q)) /\
  agrees pm (poly_mul m p q) (poly_mul m (pm p) (pm q)) /\
  (feqb c f0 = false -> agrees pm (poly_div_scalar m p c) (poly_div_scalar m (pm p) (fx c))) /\
  (Forall (fun u => Forall (fun d => d <= 255) (tdeg u)) p ->
   agrees fx (poly_eval p x) (poly_eval (pm p) (map fx x))).
Proof.
  intros m p q c x Hp Hq Hc Hx. assert (M : mode_le m m) by (right; reflexivity). repeat apply conj.
  - eapply agr; [apply (poly_add_rsim S); apply pmp; assumption|exact peqn].
  - eapply agr; [apply (poly_sub_rsim S); apply pmp; assumption|exact peqn].
  - eapply agr; [apply (poly_mul_rsim S _ _ M); apply pmp; assumption|exact peqn].
  - intros N. eapply agr; [apply (poly_div_scalar_rsim S _ _ M); [apply pmp; assumption|apply fx_w; exact Hc|exact N]|exact peqn].
  - intros B. eapply agr; [apply (poly_eval_rsim S); [apply pmp; assumption|exact B|]|exact fx_r].
    apply (F2_of_map _ W); [exact fx_w|exact Hx].
Qed.
Theorem C80_computer : forall m O n (f g : poly X) (gs : list (poly X)), pok f -> pok g -> Forall pok gs ->
  agrees (dmap fx) (divide m O n f gs) (divide m O n (pm f) (map pm gs)) /\
  agrees (option_map pm) (try_reduce m O f g) (try_reduce m O (pm f) (pm g)) /\
  same (buchberger_criterion m O n gs) (buchberger_criterion m O n (map pm gs)) /\
  agrees (map pm) (buchberger_algorithm m O n gs) (buchberger_algorithm m O n (map pm gs)).
Proof.
  intros m O n f g gs Hf Hg Hgs. assert (M : mode_le m m) by (right; reflexivity).
  assert (OO : ord_sim O O) by (intros a b; apply rsim_refl). repeat apply conj.
  - eapply agr; [apply (divide_rsim S _ _ M _ _ OO); [apply pmp|apply psmp]; assumption|].
    exact (drel_eq fx (xrel t e any) fx_r).
  - eapply agr; [apply (try_reduce_rsim S _ _ M _ _ OO); apply pmp; assumption|].
    intros a b. apply o_map. exact peqn.
  - apply agr_eq. apply (criterion_rsim S _ _ M _ _ OO). apply psmp. exact Hgs.
  - eapply agr; [apply (buchberger_rsim S _ _ M _ _ OO); apply psmp; exact Hgs|exact pseqn].
Qed.

(** so everything proved for exact field types holds of such runs; for instance the division identity and termination *)
Definition XS : FieldSpec X QcField := exact_float_spec t e any (is_good t T) eq_refl eq_refl eq_refl.
Theorem C80_division : forall O (OS : OrderSpec O) n (f : poly X) (gs : list (poly X)) r qs,
  pwf XS f -> Forall (pwf XS) gs -> divide Debug O n f gs = Ok (r, qs) ->
  divide Debug O n (pm f) (map pm gs) = Ok (pm r, map pm qs) /\
  peq (ip XS f) (padd (lincomb (map (ip XS) qs) (map (ip XS) gs)) (ip XS r)) /\
  (forall u g l, In u r -> In g gs -> is_lm (olt OS) (ip XS g) l -> ~ mdiv l (MonoSpec.canon (tdeg u))).
Proof.
  intros O OS n f gs r qs Wf Wg E. split.
  - assert (Hp : forall p, pwf XS p -> pok p).
    { intros p (H & _). unfold pW. eapply Forall_impl; [|exact H]. intros u Hu. apply Hu. }
    destruct (C80_computer Debug O n f [] gs (Hp f Wf) ltac:(constructor) (Forall_impl _ Hp Wg)) as (H & _).
    unfold agrees in H. rewrite E in H. apply H. discriminate.
  - split; [apply (C32_division_identity XS OS n f gs r qs Wf Wg E)|].
    exact (C33_remainder_reduced XS OS n f gs r qs Wf Wg E).
Qed.
End Poly.

Section Mat.
Notation X := (exact_float t e (sizable t)).
Notation F := (float_impl t e).
Definition fm (x : X) : F := x.
Definition finY : X -> Prop := fin t (sizable t).
Notation W := finY.
Notation TX := (exact_stab t e (sizable t)).
Notation TF := (float_stab t e).
Let S : FieldSim X F (xrel t e (sizable t)) := exact_float_sim t e (sizable t) (is_good t T) eq_refl eq_refl (sizable_one t T).
Let SS : StabSim (xrel t e (sizable t)) TX TF :=
  exact_stab_sim t e (sizable t) (sizable_eps t).
Lemma fm_w x : W x -> xrel t e (sizable t) x (fm x).
Proof. intros H. split; [reflexivity|exact H]. Qed.
Lemma fm_r x y : xrel t e (sizable t) x y -> y = fm x.
Proof. intros [<- _]. reflexivity. Qed.
Notation mok := (mW W).
Notation mm := (mmap fm).
Let mmp := mrel_map fm (xrel t e (sizable t)) W fm_w.
Let meqn := mrel_eq fm (xrel t e (sizable t)) fm_r.

Theorem C80_elimination : forall (a b : mat X) (s : @form X), mok a -> mok b -> fW W s ->
  agrees mm (mat_add a b) (mat_add (mm a) (mm b)) /\
  agrees mm (mat_mul a b) (mat_mul (mm a) (mm b)) /\
  agrees (mmap3 fm) (mat_lu TX a) (mat_lu TF (mm a)) /\
  agrees (formmap fm) (mat_row_echelon TX a) (mat_row_echelon TF (mm a)) /\
  agrees (formmap fm) (form_to_rref TX s) (form_to_rref TF (formmap fm s)) /\
  same (form_rank TX s) (form_rank TF (formmap fm s)) /\
  same (form_nullity TX s) (form_nullity TF (formmap fm s)) /\
  agrees (map mm) (compute_kernel TX s) (compute_kernel TF (formmap fm s)).
Proof.
  intros a b s Ha Hb Hs. pose proof (frel_map fm (xrel t e (sizable t)) W fm_w s Hs) as Rs. repeat apply conj.
  - eapply agr; [apply (mat_add_rsim S); apply mmp; assumption|exact meqn].
  - eapply agr; [apply (mat_mul_rsim S); apply mmp; assumption|exact meqn].
  - eapply agr; [apply (mat_lu_rsim S _ _ SS); apply mmp; assumption|].
    exact (mrel3_eq fm (xrel t e (sizable t)) fm_r).
  - eapply agr; [apply (row_echelon_rsim S _ _ SS); apply mmp; assumption|].
    exact (frel_eq fm (xrel t e (sizable t)) fm_r).
  - eapply agr; [apply (to_rref_rsim S _ _ SS); exact Rs|]. exact (frel_eq fm (xrel t e (sizable t)) fm_r).
  - apply agr_eq. apply (form_rank_rsim _ _ SS). exact Rs.
  - apply agr_eq. apply (form_nullity_rsim _ _ SS). exact Rs.
  - eapply agr; [apply (compute_kernel_rsim S _ _ SS); exact Rs|]. exact (msrel_eq fm (xrel t e (sizable t)) fm_r).
Qed.
Theorem C80_cone : forall gens : list (mat X), Forall mok gens ->
  agrees (conemap fm) (cone_new TX gens) (cone_new TF (map mm gens)).
Proof.
  intros gens H. eapply agr; [apply (cone_new_rsim S _ _ SS); apply (msrel_map fm (xrel t e (sizable t)) W fm_w); exact H|].
  exact (conerel_eq fm (xrel t e (sizable t)) fm_r).
Qed.
Definition YS : FieldSpec X QcField := exact_float_spec t e (sizable t) (is_good t T) eq_refl eq_refl (sizable_one t T).
Definition YT : StabSpec YS TX := exact_stab_spec t e (sizable t) (is_good t T) eq_refl eq_refl (sizable_one t T) (sizable_eps t).
(** for instance: the factors of lu *)
Theorem C80_lu : forall (a : mat X) n m p l u, okm YS n m a -> mat_lu TX a = Ok (p, l, u) ->
  mat_lu TF (mm a) = Ok (mm p, mm l, mm u) /\
  meq n m (mmul n (mden YS p) (mden YS a)) (mmul n (mden YS l) (mden YS u)).
Proof.
  intros a n m p l u Wa E. split.
  - assert (Ha : mok a) by (destruct Wa as ((_ & H) & _); exact H).
    destruct (C80_elimination a a (mkform a a) Ha Ha (conj Ha Ha)) as (_ & _ & H & _).
    unfold agrees in H. rewrite E in H. apply H. discriminate.
  - apply (safe_val _ _ _ (C49_lu YS TX YT a n m Wa) E).
Qed.
End Mat.
End Runs.

(** ** Concrete cases over f64 *)
Notation env0 := (mkenv (fun x _ => x) false).
Definition f64of (z : Z) : float := binary_normalize 53 1024 z 0 false.
Definition ex64 : FieldImpl := exact_float binary64 env0 any.
Definition ex_xt (z : Z) (d : mdeg) : term ex64 := @mkterm ex64 (f64of z) d.
(** x^2 y + x y^2 + y^2 divided by (x y - 1, y^2 - 1): nothing is rounded *)
Example C80_ex_divide : divide Debug lex_cmp 10 [ex_xt 1 [2; 1]; ex_xt 1 [1; 2]; ex_xt 1 [0; 2]]
    [[ex_xt 1 [1; 1]; ex_xt (-1) []]; [ex_xt 1 [0; 2]; ex_xt (-1) []]] =
  Ok ([ex_xt 1 [1]; ex_xt 1 [0; 1]; ex_xt 1 []], [[ex_xt 1 [1]; ex_xt 1 [0; 1]]; [ex_xt 1 []]]).
Proof. reflexivity. Qed.
(** 1/3 is not representable: the exact run stops *)
Example C80_ex_stops : divide Debug lex_cmp 10 [ex_xt 1 [1]] [[ex_xt 3 [1]]] = Panic Overflow.
Proof. reflexivity. Qed.
Definition ey64 : FieldImpl := exact_float binary64 env0 (sizable binary64).
Definition ex_fm (n m : nat) (l : list Z) : mat ey64 := @mkmat ey64 (map (f64of : Z -> ey64) l) n m.
Example C80_ex_lu : mat_lu (exact_stab binary64 env0 (sizable binary64)) (ex_fm 2 2 [1; 3; 2; 4]%Z) =
  Ok (ex_fm 2 2 [0; 1; 1; 0]%Z, ex_fm 2 2 [2; 0; 1; 1]%Z, ex_fm 2 2 [1; 2; 0; 1]%Z).
Proof. reflexivity. Qed.
Example C79_ex : stands binary64 (f64of (2 ^ 53)) (intq (2 ^ 53)) /\ stands binary64 (f64of (-12345)) (intq (-12345)).
Proof. repeat split; apply Qc_is_canon; reflexivity. Qed.

Print Assumptions C79_operations.
Print Assumptions C79_integers.
Print Assumptions C79_all_integers_exist.
Print Assumptions C79_integers_refuted.
Print Assumptions C80_polynomials.
Print Assumptions C80_computer.
Print Assumptions C80_division.
Print Assumptions C80_elimination.
Print Assumptions C80_cone.
Print Assumptions C80_lu.
