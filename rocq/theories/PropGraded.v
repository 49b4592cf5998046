(** * Property C109: weighted homogeneous polynomials and ideals.

    The weight of a term is [wdeg w (tdeg t)], the sum of [w i] times its exponent of x_i, for integer weights [w];
    degrees are compared modulo [k], where k = 0 means they are equal. *)
From Coq Require Import ZArith Znumtheory.
From Verif Require Import Base BaseLemmas IntModel RatModel FieldIface RatProofs MDegModel OrdModel PolyModel CompModel
  MonoSpec MDegProofs OrdProofs PolySpec PolyProofs GroebnerSpec DivProofs DivSpec GbProofs CompMono PropPoly PropDiv PropGb IdealSpec PropIdeal SubstSpec StdSpec PropIdealOps GradeSpec.
From Coq Require Import Ring Field Setoid Morphisms Permutation.

Local Open Scope nat_scope.

Section PropGraded.
Context {F : FieldImpl} {K : MathField} (FS : FieldSpec F K).
Add Field Kf34 : (kth K).
Add Ring Pr34 : (@poly_ring K) (setoid (@peq_equiv K) (@poly_ring_ext K)).
Notation poly := (poly F).
Notation val := (ip FS).
Notation clean := (pwf FS).
Notation nonzero := (fun g : poly => g <> []).
Notation mon t := (canon (tdeg t)).

(** all terms of [g] have the same weight modulo [k] *)
Definition whomog (k : Z) (w : nat -> Z) (g : poly) : Prop :=
  forall t t', In t g -> In t' g -> (k | wdeg w (tdeg t) - wdeg w (tdeg t'))%Z.
(** all terms of [g] have weight [d] modulo [k] *)
Definition wpure (k : Z) (w : nat -> Z) (d : Z) (g : poly) : Prop :=
  forall t, In t g -> (k | wdeg w (tdeg t) - d)%Z.

Lemma whomog_iff k w g : clean g -> whomog k w g <-> homog (grade k w) (val g).
Proof.
  intros W. split.
  - intros H m m' N N'. apply (pwf_support FS g m W) in N as (t & I & <-). apply (pwf_support FS g m' W) in N' as (t' & I' & <-).
    apply grade_eq. rewrite !mwdeg_canon. apply H; assumption.
  - intros H t t' I I'. rewrite <- !(mwdeg_canon w). apply grade_eq. apply H; apply (pwf_support FS g _ W); eauto.
Qed.
Lemma whomog_all k w (gs : list poly) : Forall clean gs -> Forall (whomog k w) gs -> forall g, In g (map val gs) -> homog (grade k w) g.
Proof.
  intros W H g I. apply in_map_iff in I as (g0 & <- & I). rewrite Forall_forall in W, H. apply whomog_iff; auto.
Qed.
Lemma div_trans k a b c : (k | a - b)%Z -> (k | b - c)%Z -> (k | a - c)%Z.
Proof. intros A B. replace (a - c)%Z with ((a - b) + (b - c))%Z by lia. apply Z.divide_add_r; assumption. Qed.
Lemma div_sym k a b : (k | a - b)%Z -> (k | b - a)%Z.
Proof. intros A. replace (b - a)%Z with (- (a - b))%Z by lia. apply Z.divide_opp_r. exact A. Qed.
Lemma isg_div k w m d0 : isg Z.eq_dec (grade k w) (grade k w d0) m = true <-> (k | mwdeg w m - mwdeg w d0)%Z.
Proof. rewrite isg_true. apply grade_eq. Qed.

Section Order.
Context {O : ord_impl} (OS : OrderSpec O).
Notation lt := (olt OS).
Notation LM := (is_lm lt).
Let laws := olaws _ OS.

(** ** C109 *)
(** generators whose terms have one weight each give a result whose elements are the same *)
Theorem C109_homogeneous : forall k w fuel (gens out : list poly), Forall clean gens -> Forall nonzero gens ->
  buchberger_algorithm Debug O fuel gens = Ok out -> Forall (whomog k w) gens -> Forall (whomog k w) out.
Proof.
  intros k w fuel gens out W NZ E H. destruct (algorithm_run FS OS fuel gens out W NZ E) as (Wo & SI & GB & IR).
  apply Forall_forall. intros g I. rewrite whomog_iff; [|rewrite Forall_forall in Wo; auto].
  apply (graded_reduced Z.eq_dec (grade k w) lt laws (map val out) GB IR); [|apply in_map; exact I].
  intros f d Hf. apply SI. apply (homog_graded Z.eq_dec (grade k w) (grade_mul k w)); [apply whomog_all; assumption|]. apply SI. exact Hf.
Qed.
(** the result decides whether the ideal is homogeneous: whether it contains, with [f], the part of [f] of each weight *)
Theorem C109_ideal : forall k w fuel (gens out : list poly), Forall clean gens -> Forall nonzero gens ->
  buchberger_algorithm Debug O fuel gens = Ok out ->
  (Forall (whomog k w) out <->
   forall f h d, in_ideal (map val gens) f ->
     (forall m, (k | mwdeg w m - d)%Z -> coeff h m = coeff f m) -> (forall m, ~ (k | mwdeg w m - d)%Z -> coeff h m = k0) ->
     in_ideal (map val gens) h).
Proof.
  intros k w fuel gens out W NZ E. destruct (algorithm_run FS OS fuel gens out W NZ E) as (Wo & SI & GB & IR). split.
  - intros H f h d Hf A B. destruct (peq_zero_dec h) as [Z|(m0 & N0)]; [rewrite Z; apply in_ideal_zero|].
    assert (D0 : (k | mwdeg w m0 - d)%Z) by (destruct (Zdivide_dec k (mwdeg w m0 - d)) as [Y|Y]; [exact Y|exfalso; apply N0; apply B; exact Y]).
    assert (X : peq h (comp Z.eq_dec (grade k w) (grade k w m0) f)).
    { apply peq_coeff. intros m. unfold comp. rewrite coeff_pfilter. destruct (isg Z.eq_dec (grade k w) (grade k w m0) m) eqn:G.
      - apply isg_div in G. apply A. apply (div_trans k _ (mwdeg w m0)); assumption.
      - apply B. intros Y. assert (T : isg Z.eq_dec (grade k w) (grade k w m0) m = true); [|congruence].
        apply isg_div. apply (div_trans k _ d); [exact Y|apply div_sym; exact D0]. }
    rewrite X. apply SI. apply (homog_graded Z.eq_dec (grade k w) (grade_mul k w)); [apply whomog_all; assumption|]. apply SI. exact Hf.
  - intros H. apply Forall_forall. intros g I. rewrite whomog_iff; [|rewrite Forall_forall in Wo; auto].
    apply (graded_reduced Z.eq_dec (grade k w) lt laws (map val out) GB IR); [|apply in_map; exact I].
    intros f d Hf. destruct (peq_zero_dec (comp Z.eq_dec (grade k w) d f)) as [Z|(m0 & N0)]; [rewrite Z; apply in_ideal_zero|].
    assert (D0 : grade k w m0 = d).
    { unfold comp in N0. rewrite coeff_pfilter in N0. destruct (isg Z.eq_dec (grade k w) d m0) eqn:G; [apply isg_true in G; exact G|contradiction N0; reflexivity]. }
    apply SI. apply (H f _ (mwdeg w m0)); [apply SI; exact Hf| |]; intros m Y; unfold comp; rewrite coeff_pfilter; subst d;
      destruct (isg Z.eq_dec (grade k w) (grade k w m0) m) eqn:G; try reflexivity.
    + exfalso. apply isg_div in Y. congruence.
    + apply isg_div in G. contradiction.
Qed.
(** division respects weights: the remainder has the weight of [f], and so have all products of a term of a quotient and a term of its divisor *)
Theorem C109_division : forall k w d fuel (f : poly) divs r qs, clean f -> Forall clean divs ->
  divide Debug O fuel f divs = Ok (r, qs) -> Forall (whomog k w) divs -> wpure k w d f ->
  wpure k w d r /\
  forall i q g t s, nth_error qs i = Some q -> nth_error divs i = Some g -> In t q -> In s g ->
    (k | wdeg w (tdeg t) + wdeg w (tdeg s) - d)%Z.
Proof.
  intros k w d fuel f divs r qs W Wd E H Hf. destruct (divide_run FS OS fuel f divs r qs W Wd E) as (Wr & Wq & _).
  destruct (C67_division_determined FS OS fuel f divs r qs W Wd E) as [Dv _].
  destruct f as [|t0 f'].
  { assert (X : r = [] /\ Forall (fun q => q = []) qs).
    { assert (D0 : division lt (val []) (map val divs) (map (fun _ => pzero) (map val divs)) pzero).
      { constructor.
        - rewrite !map_length. reflexivity.
        - change (val []) with (@pzero K). generalize (map val divs). intros l. induction l as [|g l IH]; [reflexivity|]. cbn [map lincomb].
          assert (A : peq (padd (padd (pmul pzero g) (lincomb (map (fun _ => pzero) l) l)) pzero) (padd (lincomb (map (fun _ => pzero) l) l) pzero)) by ring.
          rewrite A. exact IH.
        - intros m N. contradiction N. reflexivity.
        - assert (Z : forall (l : list (spoly K)) i q, nth_error (map (fun _ => @pzero K) l) i = Some q -> q = pzero).
          { intros l i q Y. apply nth_error_In in Y. apply in_map_iff in Y as (x & <- & _). reflexivity. }
          split; [intros i j q gi gj li lj a Hq _ _ _ _ N _; rewrite (Z _ _ _ Hq) in N; contradiction N; reflexivity|].
          intros i q g Hq _ _. rewrite (Z _ _ _ Hq). reflexivity. }
      destruct (division_unique lt laws _ _ _ _ _ _ Dv D0) as [Uq Ur]. split.
      - apply (pwf_zero_iff FS r Wr). exact Ur.
      - apply Forall_forall. intros q I. apply (pwf_zero_iff FS q); [rewrite Forall_forall in Wq; auto|].
        clear - Uq I. apply (in_map val) in I. revert I Uq. generalize (val q), (map val qs), (map val divs). intros x l l' I U.
        remember (map (fun _ => pzero) l') as z eqn:Ez. revert l' Ez. induction U as [|a b la lb P _ IH]; intros l' Ez; [contradiction I|].
        destruct l' as [|c l']; [discriminate Ez|]. cbn [map] in Ez. injection Ez as -> ->. destruct I as [<-|I]; [exact P|exact (IH I l' eq_refl)]. }
    destruct X as [-> Hq]. split; [intros t []|]. intros i q g t s Eq _ It _. rewrite Forall_forall in Hq. rewrite (Hq q (nth_error_In _ _ Eq)) in It. destruct It. }
  set (f := t0 :: f') in *. set (m0 := mon t0).
  assert (D0 : (k | mwdeg w m0 - d)%Z) by (unfold m0; rewrite mwdeg_canon; apply Hf; left; reflexivity).
  destruct (graded_division Z.eq_dec (grade k w) (grade_mul k w) lt laws (grade k w m0) (val f) (map val divs) (map val qs) (val r)) as [A B];
    [apply whomog_all; assumption| |exact Dv|].
  { intros m N. apply (pwf_support FS f m W) in N as (t & I & <-). apply grade_eq. rewrite mwdeg_canon. apply (div_trans k _ d); [apply Hf; exact I|apply div_sym; exact D0]. }
  split.
  - intros t I. rewrite <- mwdeg_canon. apply (div_trans k _ (mwdeg w m0)); [|exact D0]. apply grade_eq. apply A. apply (pwf_support FS r _ Wr). eauto.
  - intros i q g t s Eq Eg It Is. rewrite <- !(mwdeg_canon w), <- mwdeg_mul. apply (div_trans k _ (mwdeg w m0)); [|exact D0]. apply grade_eq.
    rewrite Forall_forall in Wd, Wq.
    apply (B i (val q) (val g)); [apply map_nth_error; exact Eq|apply map_nth_error; exact Eg|apply (pwf_support FS q _ (Wq q (nth_error_In _ _ Eq))); eauto|].
    apply (pwf_support FS g _ (Wd g (nth_error_In _ _ Eg))); eauto.
Qed.
(** an S-polynomial of two homogeneous polynomials is homogeneous, of the weight of the least common multiple of their leading monomials *)
Theorem C109_spoly : forall k w (f g s : poly) tf tg, clean f -> clean g -> whomog k w f -> whomog k w g ->
  leading_term O f = Ok (Some tf) -> leading_term O g = Ok (Some tg) -> try_reduce Debug O f g = Ok (Some s) ->
  wpure k w (wdeg w (lzip Nat.max (tdeg tf) (tdeg tg))) s.
Proof.
  intros k w f g s tf tg Wf Wg Hf Hg Ef Eg E. destruct (C37_s_polynomial FS OS f g s Wf Wg E) as (Ws & l & l' & Ll & Ll' & X & _).
  destruct (proj1 (C31_clean FS OS f Wf) tf Ef) as (_ & Lf & _). destruct (proj1 (C31_clean FS OS g Wg) tg Eg) as (_ & Lg & _).
  rewrite (is_lm_unique lt laws _ _ _ Ll Lf), (is_lm_unique lt laws _ _ _ Ll' Lg) in *. clear l l' Ll Ll'.
  intros t I. rewrite <- !(mwdeg_canon w). apply grade_eq.
  assert (Y : canon (lzip Nat.max (tdeg tf) (tdeg tg)) = mlcm (mon tf) (mon tg)).
  { apply mono_ext. intros i. rewrite mlcm_exp, !canon_exp. apply lzip_expo. reflexivity. }
  rewrite Y. apply (spol_homog (grade k w) (grade_mul k w) lt (val f) (mon tf) (val g) (mon tg)); try assumption; [apply whomog_iff; assumption..|].
  unfold spol. rewrite <- X. apply (pwf_support FS s _ Ws). eauto.
Qed.
End Order.
End PropGraded.

(** ** Concrete cases *)
Notation RR := (rat_impl Debug).
Notation ex_w := (fun i => Z.of_nat (S i)).
Definition ex_ga : poly RR := [ex_t 1 1 [2]; ex_t (-1) 1 [0; 1]].
Definition ex_gb : poly RR := [ex_t 1 1 [3]; ex_t (-1) 1 [0; 0; 1]].
Definition ex_gout : list (poly RR) :=
  [ex_ga; [ex_t 1 1 [1; 1]; ex_t (-1) 1 [0; 0; 1]]; [ex_t 1 1 [1; 0; 1]; ex_t (-1) 1 [0; 2]]; [ex_t 1 1 [0; 3]; ex_t (-1) 1 [0; 0; 2]]].
Lemma ex_whomog k w (g : poly RR) :
  forallb (fun t => forallb (fun t' => let a := (wdeg w (tdeg t) - wdeg w (tdeg t'))%Z in if (k =? 0)%Z then (a =? 0)%Z else (a mod k =? 0)%Z) g) g = true -> whomog k w g.
Proof.
  intros H t t' I I'. rewrite forallb_forall in H. specialize (H t I). rewrite forallb_forall in H. specialize (H t' I'). cbv zeta in H.
  destruct (Z.eqb_spec k 0) as [->|N]; apply Z.eqb_eq in H; [rewrite H; apply Z.divide_0_r|apply Z.mod_divide; assumption].
Qed.
(** x^2 - y and x^3 - z with weights 1, 2, 3 *)
Example C109_ex : Forall (pwf rat_spec) [ex_ga; ex_gb] /\ Forall (whomog 0 ex_w) [ex_ga; ex_gb] /\
  buchberger_algorithm Debug lex_cmp 30 [ex_ga; ex_gb] = Ok ex_gout /\ Forall (whomog 0 ex_w) ex_gout.
Proof.
  split; [repeat (constructor; [apply ex_clean; reflexivity|]); constructor|].
  split; [repeat (constructor; [apply ex_whomog; reflexivity|]); constructor|].
  split; [reflexivity|]. repeat (constructor; [apply ex_whomog; reflexivity|]). constructor.
Qed.
(** x^2 - y^2 and xy - 1 have only terms of even degree, and so have x - y^3 and y^4 - 1; the degrees themselves differ *)
Example C109_ex_even : let gens : list (poly RR) := [[ex_t 1 1 [2]; ex_t (-1) 1 [0; 2]]; [ex_t 1 1 [1; 1]; ex_t (-1) 1 []]] in
  let out : list (poly RR) := [[ex_t 1 1 [1]; ex_t (-1) 1 [0; 3]]; [ex_t 1 1 [0; 4]; ex_t (-1) 1 []]] in
  Forall (pwf rat_spec) gens /\ buchberger_algorithm Debug lex_cmp 30 gens = Ok out /\
  Forall (whomog 2 (fun _ => 1%Z)) gens /\ Forall (whomog 2 (fun _ => 1%Z)) out /\ ~ Forall (whomog 0 (fun _ => 1%Z)) gens /\ ~ Forall (whomog 0 (fun _ => 1%Z)) out.
Proof.
  split; [repeat (constructor; [apply ex_clean; reflexivity|]); constructor|].
  split; [reflexivity|].
  split; [repeat (constructor; [apply ex_whomog; reflexivity|]); constructor|].
  split; [repeat (constructor; [apply ex_whomog; reflexivity|]); constructor|].
  split; intros H; pose proof (Forall_inv H) as A; pose proof (Forall_inv_tail H) as B; [pose proof (Forall_inv B) as A'; destruct (A' _ _ (or_introl eq_refl) (or_intror (or_introl eq_refl))) as [q Q]; cbn in Q; lia|].
  destruct (A _ _ (or_introl eq_refl) (or_intror (or_introl eq_refl))) as [q Q]; cbn in Q; lia.
Qed.
(** generators that are not homogeneous (x^2 + x + y, x + y) of a homogeneous ideal: the result x + y, y^2 shows it *)
Example C109_ex_ideal : let gens : list (poly RR) := [[ex_t 1 1 [2]; ex_t 1 1 [1]; ex_t 1 1 [0; 1]]; [ex_t 1 1 [1]; ex_t 1 1 [0; 1]]] in
  let out : list (poly RR) := [[ex_t 1 1 [1]; ex_t 1 1 [0; 1]]; [ex_t 1 1 [0; 2]]] in
  Forall (pwf rat_spec) gens /\ buchberger_algorithm Debug lex_cmp 30 gens = Ok out /\
  ~ Forall (whomog 0 (fun _ => 1%Z)) gens /\ Forall (whomog 0 (fun _ => 1%Z)) out.
Proof.
  split; [repeat (constructor; [apply ex_clean; reflexivity|]); constructor|].
  split; [reflexivity|].
  split; [|repeat (constructor; [apply ex_whomog; reflexivity|]); constructor].
  intros H; pose proof (Forall_inv H) as A; pose proof (Forall_inv_tail H) as B. destruct (A _ _ (or_introl eq_refl) (or_intror (or_introl eq_refl))) as [q Q]; cbn in Q; lia.
Qed.
Example C109_ex_division : divide Debug lex_cmp 30 ([ex_t 1 1 [4]; ex_t 1 1 [0; 2]; ex_t 1 1 [1; 0; 1]] : poly RR) [ex_ga] =
    Ok ([ex_t 1 1 [1; 0; 1]; ex_t 2 1 [0; 2]], [[ex_t 1 1 [2]; ex_t 1 1 [0; 1]]]) /\
  wpure 0 ex_w 4 ([ex_t 1 1 [4]; ex_t 1 1 [0; 2]; ex_t 1 1 [1; 0; 1]] : poly RR).
Proof.
  split; [reflexivity|]. intros t [<-|[<-|[<-|[]]]]; apply Z.divide_0_r.
Qed.
Example C109_ex_spoly : try_reduce Debug lex_cmp ex_ga ex_gb = Ok (Some [ex_t (-1) 1 [1; 1]; ex_t 1 1 [0; 0; 1]]) /\
  leading_term lex_cmp ex_ga = Ok (Some (ex_t 1 1 [2])) /\ leading_term lex_cmp ex_gb = Ok (Some (ex_t 1 1 [3])).
Proof. split; [reflexivity|]. split; reflexivity. Qed.

Print Assumptions C109_homogeneous.
Print Assumptions C109_ideal.
Print Assumptions C109_division.
Print Assumptions C109_spoly.
