(** * Property C127: Groebner bases and divisions of monomials and differences of monomials need no rounding and do not depend on
    the field.

    A polynomial of this kind is 0, c x^a or c x^a - c x^b with c = 1 or -1.  It is written down as a list of integer
    coefficients with their multidegrees ([ipoly], PropInt.v); a polynomial over Rational, f32, f64 or an exact field [reads]
    such a list when its terms have these coefficients and multidegrees in this order. *)
From Coq Require Import ZArith QArith Qcanon Lia Ring Field.
From Verif Require Import Base BaseLemmas IntModel RatModel FieldIface IntProofs RatProofs NumFacts MDegModel OrdModel PolyModel CompModel
  MonoSpec MDegProofs OrdProofs PolySpec PolyProofs GroebnerSpec DivProofs GbProofs UtilModel MatModel MatProofs Param ParamMat Ideal FloatModel FloatExact FloatSim PropFloat PropMdeg
  BoundProofs PropBounds PropPoly PropDiv PropGb IntSim PropInt SignSim SignRun.
Local Open Scope Z_scope.

(** the number types: [rd n x] says that [x] is the integer [n] *)
Inductive signs : forall F : FieldImpl, (Z -> F -> Prop) -> Prop :=
| signs_rational : signs (rat_impl Debug) rat_is
| signs_float t e : is_fmt t -> signs (float_impl t e) (float_is t e)
| signs_exact K : signs (ideal_impl K) (sgn_in K).
(** no zero coefficient, canonical multidegrees with u8 entries, no multidegree twice; at most two terms, with coefficients 1 and -1 *)
Definition pure (z : ipoly) : Prop :=
  tidy z /\ (z = [] \/ (exists d, z = [(1, d)] \/ z = [(-1, d)]) \/ (exists d d', z = [(1, d); (-1, d')] \/ z = [(-1, d); (1, d')])).
Definition plus_minus (z : ipoly) : Prop := tidy z /\ Forall (fun t => fst t = 1 \/ fst t = -1) z.
(** the run [x] ends like [w]: with values that are related, with the same panic, or without fuel *)
Definition ends {A B : Type} (P : A -> B -> Prop) (x : res A) (w : res B) : Prop :=
  match x, w with
  | Ok a, Ok b => P a b
  | Panic k, Panic k' => k = k'
  | NoFuel, NoFuel => True
  | _, _ => False
  end.

Lemma signs_sim F rd : signs F rd -> FieldSim (zimpl 1) F rd.
Proof.
  intros [|t e T|K].
  - apply zr_sim. unfold i64_max. lia.
  - apply zf_sim; [exact T|]. destruct T as [-> | ->]; cbn; lia.
  - apply sgn_sim.
Qed.
Lemma clean_tidy (p : poly (zimpl 1)) : pwf (zspec 1) p -> tidy (unlift 1 p).
Proof.
  intros [W N]. split.
  - unfold whole, unlift. rewrite map_map. apply Forall_map. revert W. apply Forall_impl. intros t (_ & Nz & M). split; [exact I|]. split; [exact Nz|exact M].
  - unfold whole, unlift. rewrite !map_map. exact N.
Qed.
Lemma tidy_clean z : tidy z -> pwf (zspec 1) (lift 1 z).
Proof.
  intros [W N]. split.
  - unfold whole in W. rewrite Forall_map in W. unfold lift. apply Forall_map. revert W. apply Forall_impl. intros t (_ & Nz & M). split; [exact I|]. split; [exact Nz|exact M].
  - unfold whole, lift in *. rewrite map_map in *. exact N.
Qed.
Lemma pure_sg z : pure z -> sg (lift 1 z).
Proof.
  intros [_ [->|[(d & [->| ->])|(d & d' & [->| ->])]]].
  - left. reflexivity.
  - right; left. eexists. split; [reflexivity|]. left. reflexivity.
  - right; left. eexists. split; [reflexivity|]. right. reflexivity.
  - right; right. eexists. eexists. split; [reflexivity|]. split; [left; reflexivity|reflexivity].
  - right; right. eexists. eexists. split; [reflexivity|]. split; [right; reflexivity|reflexivity].
Qed.
Lemma sg_pure p : pwf (zspec 1) p -> sg p -> pure (unlift 1 p).
Proof.
  intros W S. split; [apply clean_tidy; exact W|]. destruct S as [->|[(l & -> & U)|(l & u & -> & U & E)]].
  - left. reflexivity.
  - right; left. exists (tdeg l). cbn. destruct U as [-> | ->]; auto.
  - right; right. exists (tdeg l), (tdeg u). cbn. rewrite E. destruct U as [-> | ->]; auto.
Qed.
Lemma units_pm p : pwf (zspec 1) p -> Forall unit p -> plus_minus (unlift 1 p).
Proof. intros W U. split; [apply clean_tidy; exact W|]. unfold unlift. apply Forall_map. exact U. Qed.

(** the integer outcome that belongs to a run over [zimpl 1] *)
Definition rmap {A B : Type} (f : A -> B) (x : res A) : res B := match x with Ok a => Ok (f a) | Panic k => Panic k | NoFuel => NoFuel end.
Lemma ends_of {A A' B : Type} (P : A -> A' -> Prop) (f : A -> B) (Q : A' -> B -> Prop) x y :
  ssim P x y -> (forall a a', P a a' -> Q a' (f a)) -> ends Q y (rmap f x).
Proof. intros H G. unfold ssim in H. destruct x, y; cbn in *; auto; contradiction. Qed.
Lemma rmap_Ok {A B : Type} (f : A -> B) x b : rmap f x = Ok b -> exists a, x = Ok a /\ f a = b.
Proof. destruct x; intros E; try discriminate E. injection E as <-. eauto. Qed.
Section Over.
Context {F : FieldImpl} (rd : Z -> F -> Prop).
Notation R := (rd : zimpl 1 -> F -> Prop).
Lemma pure_pg p z : reads rd p z -> pure z -> pg (R := R) (lift 1 z) p.
Proof. intros H P. split; [apply reads_lift; exact H|]. split; [apply tidy_clean; apply P|apply pure_sg; exact P]. Qed.
Lemma pures_pg ps zs : Forall2 (reads rd) ps zs -> Forall pure zs -> Forall2 (pg (R := R)) (map (lift 1) zs) ps.
Proof. induction 1 as [|p z ps zs H _ IH]; intros P; [constructor|]. apply Forall_cons_iff in P as [P1 P2]. constructor; [apply pure_pg; assumption|auto]. Qed.
Lemma pg_reads p q : pg (R := R) p q -> reads rd q (unlift 1 p).
Proof. intros (H & _). apply lift_reads. exact H. Qed.
Lemma pgs_reads ps qs : Forall2 (pg (R := R)) ps qs -> Forall2 (reads rd) qs (map (unlift 1) ps).
Proof. induction 1; constructor; [apply pg_reads; assumption|assumption]. Qed.
Lemma prels_reads ps qs : Forall2 (Forall2 (trel (R := R))) ps qs -> Forall2 (reads rd) qs (map (unlift 1) ps).
Proof. induction 1; constructor; [apply lift_reads; assumption|assumption]. Qed.
End Over.
(** the exact run shows what the results look like *)
Notation Rq := (zq 1).
Lemma whole_pg z : pure z -> pg (R := Rq) (lift 1 z) (whole z).
Proof. intros P. split; [apply rel_whole|]. split; [apply tidy_clean; apply P|apply pure_sg; exact P]. Qed.
Lemma wholes_pg zs : Forall pure zs -> Forall2 (pg (R := Rq)) (map (lift 1) zs) (map whole zs).
Proof. induction 1; constructor; [apply whole_pg; assumption|assumption]. Qed.
Lemma ssim_val {A A' : Type} (P : A -> A' -> Prop) x y a : ssim P x y -> x = Ok a -> exists a', P a a'.
Proof. intros H ->. unfold ssim in H. destruct y as [a'| |]; try contradiction. eauto. Qed.
Lemma pgs_pure ps (qs : list (poly QI)) : Forall2 (pg (R := Rq)) ps qs -> Forall pure (map (unlift 1) ps).
Proof. induction 1 as [|p q ps qs (_ & W & S) _ IH]; constructor; [apply sg_pure; assumption|assumption]. Qed.

Section C127.
Context {O : ord_impl} (OS : OrderSpec O) (fuel : nat).

(** division: one outcome [w] in integers, which the run over every number type has *)
Theorem C127_division : forall f gs, pure f -> Forall pure gs -> exists w : res (ipoly * list ipoly),
  (forall r qs, w = Ok (r, qs) -> pure r /\ Forall plus_minus qs) /\
  forall F rd, signs F rd -> forall (p : poly F) ps, reads rd p f -> Forall2 (reads rd) ps gs ->
    ends (fun x z => reads rd (fst x) (fst z) /\ Forall2 (reads rd) (snd x) (snd z)) (divide Debug O fuel p ps) w.
Proof.
  intros f gs Pf Pg. exists (rmap (fun x => (unlift 1 (fst x), map (unlift 1) (snd x))) (divide Debug O fuel (lift 1 f) (map (lift 1) gs))). split.
  - intros r qs E. apply rmap_Ok in E as ([r0 qs0] & E & Eq). injection Eq as <- <-.
    destruct (ssim_val _ _ _ _ (divide_pg (zq_sim 1) OS fuel _ _ _ _ (whole_pg f Pf) (wholes_pg gs Pg)) E) as (x & (_ & W & S) & _ & Wq & U). cbn [fst snd] in *.
    split; [apply sg_pure; assumption|]. apply Forall_map. rewrite Forall_forall in *. intros q I. apply units_pm; auto.
  - intros F rd X p ps Hp Hps. eapply ends_of; [exact (divide_pg (signs_sim F rd X) OS fuel _ _ _ _ (pure_pg rd p f Hp Pf) (pures_pg rd ps gs Hps Pg))|].
    intros [r qs] [r' qs'] ((H1 & _) & H2 & _). cbn [fst snd] in *. split; [apply lift_reads; exact H1|apply prels_reads; exact H2].
Qed.
Theorem C127_s_polynomial : forall f g, pure f -> pure g -> exists w : res (option ipoly),
  (forall s, w = Ok (Some s) -> pure s) /\
  forall F rd, signs F rd -> forall p q : poly F, reads rd p f -> reads rd q g ->
    ends (fun x z => match x, z with Some s, Some u => reads rd s u | None, None => True | _, _ => False end) (try_reduce Debug O p q) w.
Proof.
  intros f g Pf Pg. exists (rmap (option_map (unlift 1)) (try_reduce Debug O (lift 1 f) (lift 1 g))). split.
  - intros s E. apply rmap_Ok in E as ([s0|] & E & Eq); [|discriminate Eq]. injection Eq as <-.
    destruct (ssim_val _ _ _ _ (spoly_pg (zq_sim 1) OS _ _ _ _ (whole_pg f Pf) (whole_pg g Pg)) E) as ([x|] & H); [|destruct H]. destruct H as (_ & W & S). apply sg_pure; assumption.
  - intros F rd X p q Hp Hq. eapply ends_of; [exact (spoly_pg (signs_sim F rd X) OS _ _ _ _ (pure_pg rd p f Hp Pf) (pure_pg rd q g Hq Pg))|].
    intros [s|] [s'|] H; cbn in *; try contradiction; [|exact I]. apply pg_reads. exact H.
Qed.
Theorem C127_criterion : forall gs, Forall pure gs -> exists w : res bool,
  forall F rd, signs F rd -> forall ps : list (poly F), Forall2 (reads rd) ps gs -> buchberger_criterion Debug O fuel ps = w.
Proof.
  intros gs Pg. exists (buchberger_criterion Debug O fuel (map (lift 1) gs)). intros F rd X ps Hps.
  pose proof (criterion_ssim (signs_sim F rd X) OS fuel _ _ (pures_pg rd ps gs Hps Pg)) as H. unfold ssim in H.
  destruct (buchberger_criterion Debug O fuel (map (lift 1) gs)), (buchberger_criterion Debug O fuel ps); try contradiction; congruence.
Qed.
Definition same_for_all (run : forall F : FieldImpl, list (poly F) -> res (list (poly F))) (gs : list ipoly) : Prop :=
  exists w : res (list ipoly), (forall out, w = Ok out -> Forall pure out) /\
  forall F rd, signs F rd -> forall ps : list (poly F), Forall2 (reads rd) ps gs -> ends (Forall2 (reads rd)) (run F ps) w.
Lemma same_of (run : forall F : FieldImpl, list (poly F) -> res (list (poly F))) gs : Forall pure gs ->
  (forall (F : FieldImpl) (R : Zi -> F -> Prop), FieldSim (zimpl 1) F R -> forall zs ps, Forall2 (pg (R := R)) zs ps -> ssim (Forall2 (pg (R := R))) (run (zimpl 1) zs) (run F ps)) ->
  same_for_all run gs.
Proof.
  intros Pg H. exists (rmap (map (unlift 1)) (run (zimpl 1) (map (lift 1) gs))). split.
  - intros out E. apply rmap_Ok in E as (o & E & <-). destruct (ssim_val _ _ _ _ (H QI _ (zq_sim 1) _ _ (wholes_pg gs Pg)) E) as (x & Hx). exact (pgs_pure _ _ Hx).
  - intros F rd X ps Hps. eapply ends_of; [exact (H F _ (signs_sim F rd X) _ _ (pures_pg rd ps gs Hps Pg))|]. intros a a' Ha. apply pgs_reads. exact Ha.
Qed.
Theorem C127_extend : forall gs, Forall pure gs -> same_for_all (fun F ps => buchberger_extend Debug O fuel ps) gs.
Proof. intros gs P. apply same_of; [exact P|]. intros F R X zs ps H. exact (extend_loop_ssim X OS fuel fuel zs ps 0%nat H). Qed.
Theorem C127_minimize : forall gs, Forall pure gs -> same_for_all (fun F ps => buchberger_minimize O fuel ps) gs.
Proof. intros gs P. apply same_of; [exact P|]. intros F R X zs ps H. exact (minimize_loop_ssim X fuel zs ps H). Qed.
Theorem C127_reduce : forall gs, Forall pure gs -> same_for_all (fun F ps => buchberger_reduce Debug O fuel ps) gs.
Proof. intros gs P. apply same_of; [exact P|]. intros F R X zs ps H. exact (reduce_loop_ssim X OS fuel fuel zs ps H). Qed.
Theorem C127_algorithm : forall gs, Forall pure gs -> same_for_all (fun F ps => buchberger_algorithm Debug O fuel ps) gs.
Proof. intros gs P. apply same_of; [exact P|]. intros F R X zs ps H. exact (algorithm_ssim X OS fuel zs ps H). Qed.
End C127.

(** ** Concrete cases *)
(** the field with two elements *)
Definition F2 : MathField.
Proof.
  refine {| kcar := bool; k0 := false; k1 := true; kadd := xorb; kmul := andb; ksub := xorb; kopp := fun x => x; kdiv := andb; kinv := fun x => x; kdec := Bool.bool_dec |}.
  split.
  - split; try (intros [] [] []; reflexivity); try (intros [] []; reflexivity); intros []; reflexivity.
  - discriminate.
  - intros [] []; reflexivity.
  - intros [] H; [reflexivity|destruct (H eq_refl)].
Defined.
Ltac pure_tac := (split; [apply tidy_b; [reflexivity|]; repeat constructor; cbn; intuition discriminate|]).
Definition ex_ba : ipoly := [(1, [2%nat]); (-1, [0; 1]%nat)].
Definition ex_bb : ipoly := [(1, [3%nat]); (-1, [0; 0; 1]%nat)].
Definition ex_bout : list ipoly := [ex_ba; [(1, [1; 1]%nat); (-1, [0; 0; 1]%nat)]; [(1, [1; 0; 1]%nat); (-1, [0; 2]%nat)]; [(1, [0; 3]%nat); (-1, [0; 0; 2]%nat)]].
Lemma ex_b_pure : Forall pure [ex_ba; ex_bb].
Proof. constructor; [|constructor; [|constructor]]; pure_tac; right; right; eexists; eexists; left; reflexivity. Qed.
Definition ex_two (K : MathField) (z : ipoly) : poly (ideal_impl K) := map (fun t => @mkterm (ideal_impl K) (if (fst t =? 1)%Z then k1 else kopp k1) (snd t)) z.
Lemma ex_two_reads K z : Forall (fun t => fst t = 1 \/ fst t = -1) z -> reads (F := ideal_impl K) (sgn_in K) (ex_two K z) z.
Proof.
  intros H. induction H as [|[n d] z E _ IH]; [constructor|]. unfold ex_two. cbn [map]. constructor; [|exact IH]. cbn in E |- *.
  destruct E as [-> | ->]; (split; [unfold sgn_in; cbn; auto|reflexivity]).
Qed.
Lemma unlift_lift z : unlift 1 (lift 1 z) = z.
Proof. unfold unlift, lift. rewrite map_map. rewrite <- (map_id z) at 2. apply map_ext. intros [n d]. reflexivity. Qed.
Lemma ex_out_pure : Forall pure ex_bout.
Proof. repeat (constructor; [pure_tac; right; right; eexists; eexists; left; reflexivity|]); constructor. Qed.
Lemma ex_run : buchberger_algorithm Debug lex_cmp 30 (map (lift 1) [ex_ba; ex_bb]) = Ok (map (lift 1) ex_bout).
Proof. vm_cast_no_check (eq_refl (Ok (map (lift 1) ex_bout))). Qed.
Lemma ex_run2 : buchberger_algorithm Debug lex_cmp 30 (map (ex_two F2) [ex_ba; ex_bb]) = Ok (map (ex_two F2) ex_bout).
Proof. vm_cast_no_check (eq_refl (Ok (map (ex_two F2) ex_bout))). Qed.
Lemma ends_run n zs out F rd : signs F rd -> Forall pure zs -> forall ps : list (poly F), Forall2 (reads rd) ps zs ->
  buchberger_algorithm Debug lex_cmp n (map (lift 1) zs) = Ok (map (lift 1) out) ->
  exists o, buchberger_algorithm Debug lex_cmp n ps = Ok o /\ Forall2 (reads rd) o out.
Proof.
  intros X P ps Hps E. pose proof (algorithm_ssim (signs_sim F rd X) lex_spec n _ _ (pures_pg rd ps _ Hps P)) as H.
  rewrite E in H. unfold ssim in H. destruct (buchberger_algorithm Debug lex_cmp n ps) as [o| |]; try contradiction. exists o. split; [reflexivity|].
  apply pgs_reads in H. rewrite map_map in H. rewrite (map_ext _ (fun x => x)) in H; [rewrite map_id in H; exact H|]. exact unlift_lift.
Qed.
Lemma ends_panic n zs k F rd : signs F rd -> Forall pure zs -> forall ps : list (poly F), Forall2 (reads rd) ps zs ->
  buchberger_algorithm Debug lex_cmp n (map (lift 1) zs) = Panic k -> buchberger_algorithm Debug lex_cmp n ps = Panic k.
Proof.
  intros X P ps Hps E. pose proof (algorithm_ssim (signs_sim F rd X) lex_spec n _ _ (pures_pg rd ps _ Hps P)) as H.
  rewrite E in H. unfold ssim in H. destruct (buchberger_algorithm Debug lex_cmp n ps); try contradiction. congruence.
Qed.
(** x^2 - y and x^3 - z: the same basis over Rational and, read modulo 2, over the field with two elements *)
Example C127_ex : Forall pure [ex_ba; ex_bb] /\ Forall pure ex_bout /\
  (forall F rd, signs F rd -> forall ps : list (poly F), Forall2 (reads rd) ps [ex_ba; ex_bb] ->
     exists out, buchberger_algorithm Debug lex_cmp 30 ps = Ok out /\ Forall2 (reads rd) out ex_bout) /\
  buchberger_algorithm Debug lex_cmp 30 (map (ex_two F2) [ex_ba; ex_bb]) = Ok (map (ex_two F2) ex_bout).
Proof.
  split; [exact ex_b_pure|]. split; [exact ex_out_pure|]. split; [|exact ex_run2].
  intros F rd X ps Hps. exact (ends_run 30 _ ex_bout F rd X ex_b_pure ps Hps ex_run).
Qed.
(** sums of two monomials are not like this: x + y divided by x - y leaves 2 y over the rationals and nothing modulo 2 *)
Theorem C127_sums_refuted : ~ exists w : res (ipoly * list ipoly), forall F rd, signs F rd -> forall (p : poly F) ps,
  reads rd p [(1, [1%nat]); (1, [0; 1]%nat)] -> Forall2 (reads rd) ps [[(1, [1%nat]); (-1, [0; 1]%nat)]] ->
  ends (fun x z => reads rd (fst x) (fst z) /\ Forall2 (reads rd) (snd x) (snd z)) (divide Debug lex_cmp 30 p ps) w.
Proof.
  intros (w & H).
  pose proof (H _ _ (signs_exact F2) (ex_two F2 [(1, [1%nat]); (1, [0; 1]%nat)]) [ex_two F2 [(1, [1%nat]); (-1, [0; 1]%nat)]]) as H2.
  pose proof (H _ _ (signs_exact QcField) (ex_two QcField [(1, [1%nat]); (1, [0; 1]%nat)]) [ex_two QcField [(1, [1%nat]); (-1, [0; 1]%nat)]]) as Hq.
  assert (R : forall K, reads (F := ideal_impl K) (sgn_in K) (ex_two K [(1, [1%nat]); (1, [0; 1]%nat)]) [(1, [1%nat]); (1, [0; 1]%nat)]) by (intros K; apply ex_two_reads; repeat constructor; cbn; auto).
  assert (R' : forall K, Forall2 (reads (F := ideal_impl K) (sgn_in K)) [ex_two K [(1, [1%nat]); (-1, [0; 1]%nat)]] [[(1, [1%nat]); (-1, [0; 1]%nat)]]) by (intros K; constructor; [apply ex_two_reads; repeat constructor; cbn; auto|constructor]).
  specialize (H2 (R F2) (R' F2)). specialize (Hq (R QcField) (R' QcField)).
  assert (E2 : exists q, divide Debug lex_cmp 30 (ex_two F2 [(1, [1%nat]); (1, [0; 1]%nat)]) [ex_two F2 [(1, [1%nat]); (-1, [0; 1]%nat)]] = Ok ([], q)) by (eexists; reflexivity).
  destruct E2 as (q & E2). rewrite E2 in H2.
  destruct w as [[r qs]| |]; cbn [ends] in H2; try contradiction. destruct H2 as [H2 _]. cbn [fst] in H2. inversion H2; subst r.
  assert (Eq : exists t u v q, divide Debug lex_cmp 30 (ex_two QcField [(1, [1%nat]); (1, [0; 1]%nat)]) [ex_two QcField [(1, [1%nat]); (-1, [0; 1]%nat)]] = Ok (@mkterm (ideal_impl QcField) t u :: v, q))
    by (eexists; eexists; eexists; eexists; reflexivity).
  destruct Eq as (t & u & v & q' & Eq). rewrite Eq in Hq. destruct Hq as [Hq _]. cbn [fst] in Hq. inversion Hq.
Qed.
(** where the exponents leave u8 the panic is the same too: x^200 - y and x y^200 - 1 *)
Definition ex_bov : list ipoly := [[(1, [200%nat]); (-1, [0; 1]%nat)]; [(1, [1; 200]%nat); (-1, [])]].
Lemma ex_bov_pure : Forall pure ex_bov.
Proof. constructor; [|constructor; [|constructor]]; pure_tac; right; right; eexists; eexists; left; reflexivity. Qed.
Lemma ex_run_ov : buchberger_algorithm Debug lex_cmp 30 (map (lift 1) ex_bov) = Panic Overflow.
Proof. vm_cast_no_check (eq_refl (@Panic (list (poly (zimpl 1))) Overflow)). Qed.
Example C127_ex_overflow : Forall pure ex_bov /\ forall F rd, signs F rd -> forall ps : list (poly F), Forall2 (reads rd) ps ex_bov ->
  buchberger_algorithm Debug lex_cmp 30 ps = Panic Overflow.
Proof.
  split; [exact ex_bov_pure|]. intros F rd X ps Hps. exact (ends_panic 30 _ _ F rd X ex_bov_pure ps Hps ex_run_ov).
Qed.
Print Assumptions C127_division.
Print Assumptions C127_s_polynomial.
Print Assumptions C127_criterion.
Print Assumptions C127_extend.
Print Assumptions C127_minimize.
Print Assumptions C127_reduce.
Print Assumptions C127_algorithm.
Print Assumptions C127_sums_refuted.
