(** * C85: the coefficients of sums and products over every coefficient type, in particular floats.

    [coef_at p d] is the coefficient stored with degree vector [d], [distinct p] says that no degree
    occurs twice and [nonzero p] that no stored coefficient is zero. *)
From Verif Require Import Base BaseLemmas FieldIface MDegModel PolyModel MonoSpec MDegProofs FloatModel CleanShape PropFloatDiv.
From Coq Require Import Lia.
Local Open Scope nat_scope.

Section Any.
Context {F : FieldImpl}.
Notation poly := (poly F).
Theorem C85_add : forall p q r : poly, distinct p -> distinct q -> nonzero p -> nonzero q -> poly_add p q = Ok r ->
  distinct r /\ nonzero r /\
  forall d, match coef_at p d, coef_at q d with
            | Some x, Some y => exists z, fadd x y = Ok z /\ coef_at r d = if feqb z f0 then None else Some z
            | Some x, None => coef_at r d = Some x
            | None, Some y => coef_at r d = Some y
            | None, None => coef_at r d = None
            end.
Proof.
  intros p q r Np Nq Wp Wq E. destruct (poly_add_at q p r E Np Nq) as (Nr & Wr & A). split; [exact Nr|]. split; [auto|].
  intros d. specialize (A d). unfold sum_at in A.
  destruct (coef_at q d) as [y|] eqn:Eq; [|destruct (coef_at p d); exact A].
  destruct (coef_at_Some _ _ _ Eq) as (t & It & _ & Ct). unfold nonzero in Wq. rewrite Forall_forall in Wq. specialize (Wq t It). cbv beta in Wq.
  rewrite Ct in Wq. rewrite Wq in A. destruct (coef_at p d); exact A.
Qed.
Theorem C85_neg : forall p r : poly, poly_neg p = Ok r -> map tdeg r = map tdeg p /\
  forall d, match coef_at p d with None => coef_at r d = None | Some x => exists y, fneg x = Ok y /\ coef_at r d = Some y end.
Proof. intros p r. exact (poly_neg_at p r). Qed.
(** subtraction, when negation keeps nonzero values nonzero *)
Theorem C85_sub : (forall x y : F, feqb x f0 = false -> fneg x = Ok y -> feqb y f0 = false) ->
  forall p q r : poly, distinct p -> distinct q -> nonzero p -> nonzero q -> poly_sub p q = Ok r ->
  distinct r /\ nonzero r /\
  forall d, match coef_at p d, coef_at q d with
            | Some x, Some y => exists y' z, fneg y = Ok y' /\ fadd x y' = Ok z /\ coef_at r d = if feqb z f0 then None else Some z
            | Some x, None => coef_at r d = Some x
            | None, Some y => exists y', fneg y = Ok y' /\ coef_at r d = Some y'
            | None, None => coef_at r d = None
            end.
Proof.
  intros Ng p q r Np Nq Wp Wq E. unfold poly_sub in E. apply bind_Ok in E as (nq & En & E). destruct (poly_neg_at q nq En) as [Dn An].
  assert (Nn : distinct nq) by (unfold distinct; rewrite Dn; exact Nq).
  assert (Wn : nonzero nq).
  { unfold nonzero. apply Forall_forall. intros t It. pose proof (coef_at_In nq t Nn It) as Ct. specialize (An (tdeg t)).
    destruct (coef_at q (tdeg t)) as [x|] eqn:Ex; [|congruence]. destruct An as (y & Ey & Ay). rewrite Ct in Ay. injection Ay as ->.
    destruct (coef_at_Some _ _ _ Ex) as (s & Is & _ & Cs). unfold nonzero in Wq. rewrite Forall_forall in Wq. specialize (Wq s Is). cbv beta in Wq.
    rewrite Cs in Wq. exact (Ng _ _ Wq Ey). }
  destruct (C85_add p nq r Np Nn Wp Wn E) as (Nr & Wr & A). split; [exact Nr|]. split; [exact Wr|]. intros d. specialize (A d). specialize (An d).
  destruct (coef_at q d) as [y|].
  - destruct An as (y' & Ey & Ay). rewrite Ay in A. destruct (coef_at p d); [|eauto]. destruct A as (z & Ez & Az). eauto.
  - rewrite An in A. exact A.
Qed.
(** product with a term: the degree vectors are the sums, the coefficients single products; they may be zero *)
Theorem C85_mul_term : forall (p r : poly) t, feqb (coef t) f0 = false -> mwf (tdeg t) ->
  distinct p -> nonzero p -> (forall s, In s p -> mwf (tdeg s)) -> poly_mul_term Debug p t = Ok r ->
  distinct r /\ length r = length p /\
  forall d c, mwf d -> (coef_at r d = Some c <->
    exists s, In s p /\ canon d = mmul (canon (tdeg s)) (canon (tdeg t)) /\ fmul (coef s) (coef t) = Ok c).
Proof.
  intros p r t Zt Mt Np Wp Mp E. unfold poly_mul_term in E. unfold term_is_zero in E. rewrite Zt in E. cbn [orb] in E.
  destruct (poly_is_zero p) eqn:Z.
  - destruct p; [|discriminate]. injection E as <-. split; [constructor|]. split; [reflexivity|]. intros d c _. split; [discriminate|]. intros (s & [] & _).
  - apply Forall_forall in Mp. destruct (mul_term_at p t r Zt Wp Np Mp Mt E) as (Nr & Mr & Lr & A & B). split; [exact Nr|]. split; [exact Lr|].
    intros d c Md. split; [apply B|]. intros (s & Is & Cd & Ec). destruct (A s Is) as (d' & c' & _ & Md' & Cd' & Ec' & Ac).
    rewrite Ec in Ec'. injection Ec' as <-. replace d with d'; [exact Ac|]. apply canon_inj; [apply Md'|apply Md|congruence].
Qed.
Lemma add_mwf (q : poly) : forall p r, poly_add p q = Ok r -> (forall t, In t p -> mwf (tdeg t)) -> (forall t, In t q -> mwf (tdeg t)) ->
  distinct p -> distinct q -> forall t, In t r -> mwf (tdeg t).
Proof.
  intros p r E Mp Mq Np Nq t It. destruct (poly_add_at q p r E Np Nq) as (Nr & _ & A). specialize (A (tdeg t)).
  rewrite (coef_at_In r t Nr It) in A.
  assert (H : forall l : poly, (exists c, coef_at l (tdeg t) = Some c) -> (forall u, In u l -> mwf (tdeg u)) -> mwf (tdeg t)).
  { intros l (c & Hc) Ml. destruct (coef_at_Some _ _ _ Hc) as (s & Is & <- & _). auto. }
  unfold sum_at in A. destruct (coef_at q (tdeg t)) as [y|] eqn:Ey; [apply (H q); eauto|]. apply (H p); eauto.
Qed.
Theorem C85_mul : forall p q r : poly, distinct p -> nonzero p -> (forall s, In s p -> mwf (tdeg s)) ->
  distinct q -> nonzero q -> (forall s, In s q -> mwf (tdeg s)) -> poly_mul Debug p q = Ok r ->
  distinct r /\ forall s, In s r -> mwf (tdeg s).
Proof.
  intros p q r Np Wp Mp Nq Wq Mq E. unfold poly_mul in E. apply bind_Ok in E as (o & E & Eo).
  unfold reduce_iter in E. destruct p as [|t p]; cbn [map] in E.
  - injection E as <-. injection Eo as <-. split; [constructor|intros ? []].
  - assert (T : forall u x, In u (t :: p) -> term_mul_poly Debug u q = Ok x -> distinct x /\ forall s, In s x -> mwf (tdeg s)).
    { intros u x Iu Ex. unfold term_mul_poly, poly_mul_term, term_is_zero in Ex. unfold nonzero in Wp. rewrite Forall_forall in Wp.
      pose proof (Wp u Iu) as Zu. cbv beta in Zu. rewrite Zu in Ex. cbn [orb] in Ex. destruct (poly_is_zero q); [injection Ex as <-; split; [constructor|intros ? []]|].
      apply Forall_forall in Mq. destruct (mul_term_at q u x Zu Wq Nq Mq (Mp u Iu) Ex) as (Nx & Mx & _). rewrite Forall_forall in Mx. auto. }
    apply bind_Ok in E as (x & Ex & E). apply bind_Ok in E as (y & Ey & E). injection E as <-. injection Eo as <-.
    destruct (T t x (or_introl eq_refl) Ex) as [Nx Mx]. assert (T' : forall u z, In u p -> term_mul_poly Debug u q = Ok z -> distinct z /\ forall s, In s z -> mwf (tdeg s)) by (intros u z Iu; apply T; right; exact Iu).
    clear T Ex Np Wp Mp. revert x Nx Mx Ey. induction p as [|u p IH]; intros x Nx Mx Ey; cbn [map foldM] in Ey.
    + injection Ey as <-. auto.
    + apply bind_Ok in Ey as (x' & Ex & Ey). apply bind_Ok in Ex as (z & Ez & Ex). destruct (T' u z (or_introl eq_refl) Ez) as [Nz Mz].
      apply (IH (fun v w Iv => T' v w (or_intror Iv)) x'); [apply (poly_add_at z x x' Ex Nx Nz)|apply (add_mwf z x x' Ex Mx Mz Nx Nz)|exact Ey].
Qed.
End Any.

(** ** f32 and f64 *)
Section Float.
Context (t : fmt) (e : fenv).
Notation F := (float_impl t e).
Lemma SFeqb_opp x : SFeqb (SFopp x) fzero = SFeqb x fzero.
Proof. destruct x as [s|s| |s m k]; try reflexivity; destruct s; reflexivity. Qed.
(** the hypothesis of C85_sub *)
Theorem C85_sub_float : forall p q r : poly F, distinct p -> distinct q -> nonzero p -> nonzero q -> poly_sub p q = Ok r ->
  distinct r /\ nonzero r.
Proof.
  intros p q r Np Nq Wp Wq E. assert (Ng : forall x y : F, feqb x f0 = false -> fneg x = Ok y -> feqb y f0 = false).
  { intros x y H Ey. injection Ey as <-. cbn [feqb float_impl f0]. rewrite SFeqb_opp. exact H. }
  destruct (C85_sub Ng p q r Np Nq Wp Wq E) as (A & B & _). auto.
Qed.
Lemma SFadd_comm x y : SFadd (prec t) (emax t) x y = SFadd (prec t) (emax t) y x.
Proof.
  destruct x as [s|s| |s m k], y as [s'|s'| |s' m' k']; try reflexivity; try (destruct s, s'; reflexivity).
  cbn [SFadd]. rewrite (Z.min_comm k k'). rewrite Z.add_comm. reflexivity.
Qed.
Theorem C85_add_comm : forall p q r r' : poly F, distinct p -> distinct q -> nonzero p -> nonzero q ->
  poly_add p q = Ok r -> poly_add q p = Ok r' -> forall d, coef_at r d = coef_at r' d.
Proof.
  intros p q r r' Np Nq Wp Wq E E' d. destruct (C85_add p q r Np Nq Wp Wq E) as (_ & _ & A). destruct (C85_add q p r' Nq Np Wq Wp E') as (_ & _ & A').
  specialize (A d). specialize (A' d). destruct (coef_at p d) as [x|], (coef_at q d) as [y|]; try congruence.
  destruct A as (z & Ez & ->). destruct A' as (z' & Ez' & ->). cbn [fadd float_impl] in Ez, Ez'. rewrite SFadd_comm in Ez. rewrite Ez in Ez'. injection Ez' as <-. reflexivity.
Qed.
End Float.

(** multiplication does not keep coefficients nonzero: (2^-600 x)^2 is the term 0 x^2, which is_zero() does not recognise *)
Section Refuted.
Context (e : fenv).
Notation F := (float_impl binary64 e).
Definition small : F := S754_finite false 4503599627370496 (-652).
Definition px : poly F := [@mkterm F small [1]].
Theorem C85_mul_nonzero_refuted : distinct px /\ nonzero px /\ valid binary64 small /\
  exists r : poly F, poly_mul Debug px px = Ok r /\ poly_is_zero r = false /\ map (fun s : term F => SFeqb (coef s) fzero) r = [true].
Proof.
  split; [constructor; [intros []|constructor]|]. split; [constructor; [reflexivity|constructor]|]. split; [reflexivity|].
  assert (H : (r <- poly_mul Debug px px ;; Ok (poly_is_zero r, map (fun s : term F => SFeqb (coef s) fzero) r)) = Ok (false, [true])) by (vm_compute; reflexivity).
  apply bind_Ok in H as (r & E & H). injection H as H1 H2. eauto.
Qed.
(** and addition is not associative: 2^53 x + (x + x) and (2^53 x + x) + x *)
Definition cx (z : Z) : poly F := [@mkterm F (of_int binary64 z) [1]].
Theorem C85_add_assoc_refuted : exists p1 p2 q1 q2 : poly F,
  poly_add (cx 1) (cx 1) = Ok p1 /\ poly_add (cx (2 ^ 53)) p1 = Ok p2 /\
  poly_add (cx (2 ^ 53)) (cx 1) = Ok q1 /\ poly_add q1 (cx 1) = Ok q2 /\ coef_at p2 [1] <> coef_at q2 [1].
Proof.
  assert (H : (p1 <- poly_add (cx 1) (cx 1) ;; p2 <- poly_add (cx (2 ^ 53)) p1 ;; q1 <- poly_add (cx (2 ^ 53)) (cx 1) ;; q2 <- poly_add q1 (cx 1) ;;
    Ok (coef_at p2 [1], coef_at q2 [1])) = Ok (Some (of_int binary64 (2 ^ 53 + 2) : F), Some (of_int binary64 (2 ^ 53) : F))) by (vm_compute; reflexivity).
  apply bind_Ok in H as (p1 & E1 & H). apply bind_Ok in H as (p2 & E2 & H). apply bind_Ok in H as (q1 & E3 & H). apply bind_Ok in H as (q2 & E4 & H).
  exists p1, p2, q1, q2. split; [exact E1|]. split; [exact E2|]. split; [exact E3|]. split; [exact E4|]. injection H as H1 H2. rewrite H1, H2. vm_compute. discriminate.
Qed.
(** the hypotheses on concrete values *)
Definition pab : poly F := [@mkterm F (of_int binary64 3) [1]; @mkterm F (of_int binary64 5) [0; 2]].
Example C85_hypotheses : distinct pab /\ nonzero pab /\ (forall s : term F, In s pab -> mwf (tdeg s)).
Proof.
  split; [|split].
  - constructor; [intros [H|[]]; discriminate H|]. constructor; [intros []|constructor].
  - repeat constructor.
  - intros s [<-|[<-|[]]]; (split; [intros H; discriminate H|]); repeat constructor; lia.
Qed.
Example C85_add_example : exists r : poly F, poly_add pab px = Ok r /\ length r = 2.
Proof.
  assert (H : (r <- poly_add pab px ;; Ok (length r)) = Ok 2) by (vm_compute; reflexivity).
  apply bind_Ok in H as (r & E & H). injection H as H. eauto.
Qed.
Example C85_sub_example : exists r : poly F, poly_sub pab pab = Ok r /\ length r = 0.
Proof.
  assert (H : (r <- poly_sub pab pab ;; Ok (length r)) = Ok 0) by (vm_compute; reflexivity).
  apply bind_Ok in H as (r & E & H). injection H as H. eauto.
Qed.
Example C85_mul_example : exists r : poly F, poly_mul Debug pab pab = Ok r /\ length r = 3.
Proof.
  assert (H : (r <- poly_mul Debug pab pab ;; Ok (length r)) = Ok 3) by (vm_compute; reflexivity).
  apply bind_Ok in H as (r & E & H). injection H as H. eauto.
Qed.
End Refuted.

Print Assumptions C85_add.
Print Assumptions C85_neg.
Print Assumptions C85_sub.
Print Assumptions C85_mul_term.
Print Assumptions C85_mul.
Print Assumptions C85_sub_float.
Print Assumptions C85_add_comm.
Print Assumptions C85_mul_nonzero_refuted.
Print Assumptions C85_add_assoc_refuted.
