(** * Rounding errors of division over f32 and f64, when the leading coefficients of the divisors are one. *)
From Coq Require Import ZArith QArith Qcanon Qabs Lqa Lia Permutation Sorted.
From Coq Require Import Floats.SpecFloat.
From Verif Require Import Base BaseLemmas FieldIface MDegModel OrdModel PolyModel CompModel MonoSpec MDegProofs OrdProofs GroebnerSpec
  DivProofs DivShape FloatModel FloatExact FloatRound FloatErr FloatSim CleanShape PropFloatDiv PropFloatErr PropClean PropPolyErr.
Local Open Scope nat_scope.

Section DivErr.
Context (t : fmt) (G : good t) (e : fenv) {O : ord_impl} (OS : OrderSpec O).
Notation F := (float_impl t e).
Notation p_ := (prec t).
Notation em := (emax t).
Notation olt := (olt OS).
Notation tm s := (canon (tdeg s)).
Notation valid_poly := (valid_poly t e).
Notation pairs := (pairs t e).
Notation coef_value := (coef_value t e).
Notation opt_value := (opt_value t e).
Notation mle := (mle olt).
Let laws := olaws _ OS.

(** ** Floats *)
Lemma round_opp s m k l : binary_round_aux p_ em (negb s) m k l = SFopp (binary_round_aux p_ em s m k l).
Proof.
  unfold binary_round_aux. destruct (shr_fexp p_ em m k l) as [r1 e1]. destruct (shr_fexp p_ em _ e1 loc_Exact) as [r2 e2].
  destruct (shr_m r2) as [|q|q]; [reflexivity| |reflexivity]. destruct (e2 <=? em - p_)%Z; reflexivity.
Qed.
Lemma mul_opp (x y : float) : SFmul p_ em (SFopp x) y = SFopp (SFmul p_ em x y).
Proof.
  destruct x as [s|s| |s m k], y as [s'|s'| |s' m' k']; try reflexivity; cbn [SFopp SFmul]; rewrite <- ?Bool.negb_xorb_l; try reflexivity.
  apply round_opp.
Qed.
Lemma stands_zero (x : float) : stands t x 0%Qc -> SFeqb x fzero = true.
Proof.
  intros H. assert (Z : stands t fzero 0%Qc) by (split; [reflexivity|split; reflexivity]).
  unfold SFeqb. rewrite (compare_exact t G x fzero _ _ H Z). reflexivity.
Qed.
Lemma one_facts (c : float) : valid t c -> finite c = true ->
  valid t (SFdiv p_ em c (fone t)) /\ (fq (SFdiv p_ em c (fone t)) == fq c)%Q /\
  SFeqb (SFadd p_ em c (SFopp (SFmul p_ em (fone t) (SFdiv p_ em c (fone t))))) fzero = true.
Proof.
  intros V Fi. assert (Hc : stands t c (fval c)) by (repeat split; assumption). pose proof (fone_val t G) as H1.
  assert (E : (fval c / 1 = fval c)%Qc) by (field; discriminate).
  assert (Ha : stands t (SFdiv p_ em c (fone t)) (fval c / 1)%Qc).
  { apply (div_exact t); [exact Hc|exact H1|discriminate|]. rewrite E. exists c. exact Hc. }
  rewrite E in Ha. split; [apply Ha|]. split; [rewrite <- !fq_fval; destruct Ha as (_ & _ & ->); reflexivity|].
  assert (E2 : (1 * fval c = fval c)%Qc) by ring.
  assert (Hm : stands t (SFmul p_ em (fone t) (SFdiv p_ em c (fone t))) (1 * fval c)%Qc).
  { apply (mul_exact t G); [exact H1|exact Ha|]. rewrite E2. exists c. exact Hc. }
  rewrite E2 in Hm. apply stands_zero. assert (E3 : (fval c + - fval c = 0)%Qc) by ring. rewrite <- E3.
  apply (add_exact t); [exact Hc|apply stands_opp; exact Hm|]. rewrite E3. exists fzero. repeat split.
Qed.
Lemma div_one_finite (c : float) : finite (SFdiv p_ em c (fone t)) = true -> valid t c -> finite c = true.
Proof.
  destruct c as [s|s| |s m k]; try reflexivity; intros H _; destruct (fone t) as [s'|s'| |s' m' k'] eqn:E1; try discriminate H.
Qed.

(** ** Polynomials *)
Definition cl (p : poly F) : Prop := distinct p /\ nonzero p /\ valid_poly p /\ (forall s, In s p -> mwf (tdeg s)).
Definition fin_poly (p : poly F) : Prop := Forall (fun s : term F => finite (coef s : float) = true) p.
Definition fin_opt (o : option F) : Prop := forall c : float, o = Some c -> finite c = true.
(** all the pairs of terms of a quotient and its divisor whose product has degree [d] *)
Definition allpairs (d : list nat) (qs gs : list (poly F)) : list (float * float) :=
  flat_map (fun x => pairs d (fst x) (snd x)) (combine qs gs).

Lemma Forall2_imp {A B} (R R' : A -> B -> Prop) l l' : (forall a b, R a b -> R' a b) -> Forall2 R l l' -> Forall2 R' l l'.
Proof. intros H. induction 1; constructor; auto. Qed.
Lemma Forall2_len {A B} (R : A -> B -> Prop) l l' : Forall2 R l l' -> length l = length l'.
Proof. induction 1; cbn [length]; congruence. Qed.
Lemma combine_app' {A B} (a a' : list A) (b b' : list B) : length a = length b -> combine (a ++ a') (b ++ b') = combine a b ++ combine a' b'.
Proof. revert b. induction a as [|x a IH]; intros [|y b] L; try discriminate L; [reflexivity|]. cbn [app combine]. f_equal. apply IH. injection L as L. exact L. Qed.
Lemma psum_app l l' : (product_sum (l ++ l') == product_sum l + product_sum l')%Q.
Proof. unfold product_sum. rewrite map_app. apply qsum_app. Qed.
Lemma asum_app l l' : (abs_sum (l ++ l') == abs_sum l + abs_sum l')%Q.
Proof. unfold abs_sum. rewrite map_app. apply qsum_app. Qed.

Lemma position_none (q : poly F) d : ~ In d (map tdeg q) -> position (fun s : term F => mdeg_eqb (tdeg s) d) q = None.
Proof.
  intros H. apply position_None. apply Forall_forall. intros s Is. destruct (mdeg_eqb (tdeg s) d) eqn:E; [|reflexivity].
  apply mdeg_eqb_eq in E. exfalso. apply H. rewrite <- E. apply in_map. exact Is.
Qed.
Lemma add_term_new (q q' : poly F) a : feqb (coef a) f0 = false -> ~ In (tdeg a) (map tdeg q) -> poly_add_term q a = Ok q' -> q' = q ++ [a].
Proof.
  intros Z N E. unfold poly_add_term in E. unfold poly_from_term, term_is_zero in E. rewrite Z in E.
  destruct (poly_is_zero q) eqn:Zq.
  - destruct q; [|discriminate]. injection E as <-. reflexivity.
  - rewrite (position_none q (tdeg a) N) in E. injection E as <-. reflexivity.
Qed.
Lemma try_split lt : forall divs quots qs' a g, length quots = length divs -> try_divisors O lt divs quots = Ok (Some (qs', a, g)) ->
  exists dp dn qp q q' qn lg, divs = dp ++ g :: dn /\ quots = qp ++ q :: qn /\ length qp = length dp /\ length qn = length dn /\ qs' = qp ++ q' :: qn /\
    leading_term O g = Ok (Some lg) /\ term_try_div lt lg = Ok (Some a) /\ poly_add_term q a = Ok (q' : poly F).
Proof.
  induction divs as [|g0 divs IH]; intros [|q0 quots] qs' a g L E; try discriminate L; [discriminate E|]. injection L as L. cbn [try_divisors] in E.
  assert (Skip : (r <- try_divisors O lt divs quots ;; Ok (match r with None => None | Some (qs, a, g') => Some (q0 :: qs, a, g') end)) = Ok (Some (qs', a, g)) ->
    exists dp dn qp q q' qn lg, g0 :: divs = dp ++ g :: dn /\ q0 :: quots = qp ++ q :: qn /\ length qp = length dp /\ length qn = length dn /\ qs' = qp ++ q' :: qn /\
    leading_term O g = Ok (Some lg) /\ term_try_div lt lg = Ok (Some a) /\ poly_add_term q a = Ok (q' : poly F)).
  { intros H. apply bind_Ok in H as (r & Er & H). destruct r as [[[qs a'] g']|]; [|discriminate]. injection H as <- <- <-.
    destruct (IH _ _ _ _ L Er) as (dp & dn & qp & q & q' & qn & lg & -> & -> & L1 & L2 & -> & H).
    exists (g0 :: dp), dn, (q0 :: qp), q, q', qn, lg. cbn [app length]. intuition. }
  apply bind_Ok in E as (o & El & E). destruct o as [lg|]; [|auto]. apply bind_Ok in E as (o & Ed & E). destruct o as [a'|]; [|auto].
  apply bind_Ok in E as (q' & Eq & E). injection E as <- <- <-.
  exists [], divs, [], q0, q', quots, lg. intuition.
Qed.

(** a quotient term which is not finite is never forgotten *)
Lemma add_term_fin (q q' : poly F) (a : term F) : distinct q -> poly_add_term q a = Ok q' -> fin_poly q' -> distinct q' /\ fin_poly q /\ finite (coef a : float) = true.
Proof.
  intros N E Fq. destruct (add_term_at q a q' E N) as (N' & _ & A). split; [exact N'|].
  assert (Ff : forall d, fin_opt (coef_at q' d)).
  { intros d c Hc. destruct (coef_at_Some _ _ _ Hc) as (s & Is & _ & <-). unfold fin_poly in Fq. rewrite Forall_forall in Fq. exact (Fq s Is). }
  split.
  - apply Forall_forall. intros s Is. pose proof (coef_at_In q s N Is) as Cs. specialize (A (tdeg s)). rewrite Cs in A. specialize (Ff (tdeg s)).
    destruct (list_eq_dec _ _ _) as [Ed|Ed].
    + apply (opt_step t e _ _ _ A Ff). reflexivity.
    + cbn [sum_at] in A. apply Ff. exact A.
  - specialize (A (tdeg a)). destruct (list_eq_dec _ _ _) as [_|Ed]; [|contradiction]. destruct (opt_step t e _ _ _ A (Ff _)) as (_ & H & _).
    apply (add_finite t) in H. apply H.
Qed.
Lemma loop_fin divs : forall n p quots rem r qs, length quots = length divs -> Forall distinct quots ->
  divide_loop Debug O n p divs quots rem = Ok (r, qs) -> Forall fin_poly qs -> Forall fin_poly quots.
Proof.
  induction n as [|n IH]; intros p quots rem r qs L D E Fq; cbn [divide_loop] in E; apply bind_Ok in E as (o & El & E); destruct o as [lt|];
    [discriminate|injection E as _ <-; exact Fq| |injection E as _ <-; exact Fq].
  apply bind_Ok in E as (o & Et & E). destruct o as [[[qs' a] g]|].
  - destruct (try_split lt _ _ _ _ _ L Et) as (dp & dn & qp & q & q' & qn & lg & Ed & Eq & L1 & L2 & Eq' & _ & _ & Ea).
    apply bind_Ok in E as (ag & _ & E). apply bind_Ok in E as (f' & _ & E). subst divs quots qs'.
    apply Forall_app in D as [D1 D2]. inversion D2 as [|? ? D3 D4]; subst.
    assert (Dq' : distinct q') by (apply (add_term_at q a q' Ea D3)).
    apply IH in E; [|rewrite !app_length in *; cbn [length] in *; lia|apply Forall_app; split; [exact D1|constructor; assumption]|exact Fq].
    apply Forall_app in E as [E1 E2]. inversion E2 as [|? ? E3 E4]; subst. apply Forall_app. split; [exact E1|]. constructor; [|exact E4].
    apply (add_term_fin q q' a D3 Ea E3).
  - apply bind_Ok in E as (fs & _ & E). destruct (vec_pop fs) as [f' [l|]].
    + apply bind_Ok in E as (rem' & _ & E). apply (IH _ _ _ _ _ L D E Fq).
    + apply (IH _ _ _ _ _ L D E Fq).
Qed.
Lemma step_fin divs n p quots rem r qs lt qs' a g ag f' : length quots = length divs -> Forall distinct quots ->
  try_divisors O lt divs quots = Ok (Some (qs', a, g)) -> term_mul_poly Debug a g = Ok ag -> poly_sub p ag = Ok f' ->
  divide_loop Debug O n f' divs qs' rem = Ok (r, qs) -> Forall fin_poly qs -> finite (coef a : float) = true.
Proof.
  intros L D Et _ _ E Fq. destruct (try_split lt _ _ _ _ _ L Et) as (dp & dn & qp & q & q' & qn & lg & Ed & Eq & L1 & L2 & Eq' & _ & _ & Ea).
  subst divs quots qs'. apply Forall_app in D as [D1 D2]. inversion D2 as [|? ? D3 D4]; subst.
  assert (Dq' : distinct q') by (apply (add_term_at q a q' Ea D3)).
  apply loop_fin in E; [|rewrite !app_length in *; cbn [length] in *; lia|apply Forall_app; split; [exact D1|constructor; assumption]|exact Fq].
  apply Forall_app in E as [E1 E2]. inversion E2 as [|? ? E3 E4]; subst. apply (add_term_fin q q' a D3 Ea E3).
Qed.

(** ** The invariant *)
Definition at2 (p rem : poly F) (d : list nat) : option F := match coef_at p d with Some c => Some c | None => coef_at rem d end.
Section Loop.
Context (f : poly F) (divs : list (poly F)).
Context (Cd : forall g, In g divs -> cl g) (C1 : forall g l, In g divs -> leading_term O g = Ok (Some l) -> coef l = fone t :> float).
Definition qok (p : poly F) (q g : poly F) : Prop := distinct q /\ valid_poly q /\
  forall s lg x, In s q -> leading_term O g = Ok (Some lg) -> In x p -> olt (tm x) (mmul (tm s) (tm lg)).
Definition close (p : poly F) (quots : list (poly F)) (rem : poly F) (d : list nat) : Prop :=
  (Qabs (opt_value (at2 p rem d) - (coef_value f d - product_sum (allpairs d quots divs))) <=
    dbound t (length (allpairs d quots divs)) (Qabs (coef_value f d) + abs_sum (allpairs d quots divs)))%Q.
Definition inv (p : poly F) (quots : list (poly F)) (rem : poly F) : Prop :=
  cl p /\ cl rem /\ Forall2 (qok p) quots divs /\ (forall s x, In s rem -> In x p -> olt (tm x) (tm s)) /\
  forall d, mwf d -> fin_opt (at2 p rem d) -> close p quots rem d.

Lemma coef_mwf (p : poly F) d (c : F) : cl p -> coef_at p d = Some c -> mwf d.
Proof. intros (_ & _ & _ & M) E. destruct (coef_at_Some _ _ _ E) as (s & Is & <- & _). exact (M s Is). Qed.
Lemma lead_max (p : poly F) l : cl p -> leading_term O p = Ok (Some l) -> In l p /\ forall s, In s p -> mle (tm s) (tm l).
Proof.
  intros (_ & _ & _ & M) E. assert (W : Forall dwf p) by (apply Forall_forall; exact M).
  pose proof (safe_val _ _ _ (max_by_ok OS p W) E) as (pre & post & -> & A & B). split; [apply in_elt|].
  intros s I. apply in_app_or in I as [I|[<-|I]].
  - rewrite Forall_forall in A. auto.
  - apply mle_refl.
  - rewrite Forall_forall in B. right. auto.
Qed.
Lemma deg_of (s x : term F) : mwf (tdeg s) -> mwf (tdeg x) -> tm s = tm x -> tdeg s = tdeg x.
Proof. intros Hs Hx H. apply canon_inj; [apply Hs|apply Hx|exact H]. Qed.
Lemma same_at (p rem p' rem' : poly F) quots d : at2 p' rem' d = at2 p rem d -> close p quots rem d -> close p' quots rem' d.
Proof. unfold close. intros ->. auto. Qed.

(** *** a term moved to the remainder *)
Lemma inv_pop p quots rem lt fs f' l rem' : inv p quots rem -> leading_term O p = Ok (Some lt) -> sort_by (term_cmp O) p = Ok fs -> vec_pop fs = (f', Some l) ->
  poly_add_term rem l = Ok rem' -> inv f' quots rem'.
Proof.
  intros (Cp & Cr & Iq & Io & Ie) El Es Ev Ea.
  assert (W : Forall dwf p) by (apply Forall_forall; apply Cp).
  pose proof (safe_val _ _ _ (sort_ok OS p W) Es) as (P & Sd & _). pose proof (vec_pop_spec fs) as Vp. rewrite Ev in Vp.
  destruct Cp as (Np & Zp & Vap & Mp). pose proof Cr as (Nr & Zr & Var & Mr).
  assert (Sub : forall s, In s f' -> In s p) by (intros s I; eapply Permutation_in; [symmetry; exact P|rewrite Vp; apply in_or_app; auto]).
  assert (Il : In l p) by (eapply Permutation_in; [symmetry; exact P|rewrite Vp; apply in_elt]).
  assert (Nfs : NoDup (map tdeg fs)) by (eapply Permutation_NoDup; [apply Permutation_map; exact P|exact Np]).
  rewrite Vp, map_app in Nfs. cbn [map] in Nfs.
  assert (Nf : distinct f') by (unfold distinct; apply NoDup_remove_1 in Nfs; rewrite app_nil_r in Nfs; exact Nfs).
  assert (Nl : ~ In (tdeg l) (map tdeg f')) by (apply NoDup_remove_2 in Nfs; rewrite app_nil_r in Nfs; exact Nfs).
  assert (Below : forall s, In s f' -> olt (tm s) (tm l)).
  { intros s I. assert (H : mle (tm s) (tm l)).
    { rewrite Vp in Sd. clear - I Sd. induction f' as [|x f' IH]; [destruct I|]. cbn [app] in Sd. inversion Sd as [|? ? S' H]; subst.
      destruct I as [->|I]; [|auto]. rewrite Forall_forall in H. apply H. apply in_elt. }
    destruct H as [H|H]; [|exact H]. exfalso. apply Nl. rewrite <- (deg_of s l (Mp s (Sub s I)) (Mp l Il) H). apply in_map. exact I. }
  assert (Zl : feqb (coef l) f0 = false) by (unfold nonzero in Zp; rewrite Forall_forall in Zp; exact (Zp l Il)).
  assert (Nlr : ~ In (tdeg l) (map tdeg rem)).
  { intros I. apply in_map_iff in I as (s & Ed & Is). pose proof (Io s l Is Il) as H. rewrite Ed in H. apply (lt_irrefl olt laws _ H). }
  pose proof (add_term_new _ _ _ Zl Nlr Ea) as ->.
  assert (Cf' : cl f').
  { split; [exact Nf|]. unfold nonzero in *. unfold PropPolyErr.valid_poly in *. rewrite Forall_forall in Zp, Vap.
    split; [apply Forall_forall; auto|]. split; [apply Forall_forall; auto|auto]. }
  split; [exact Cf'|]. split.
  { split; [unfold distinct; rewrite map_app; apply nodup_snoc; assumption|]. split; [apply Forall_app; split; [exact Zr|constructor; [exact Zl|constructor]]|].
    split; [apply Forall_app; split; [exact Var|constructor; [|constructor]]; unfold PropPolyErr.valid_poly in Vap; rewrite Forall_forall in Vap; exact (Vap l Il)|].
    intros s I. apply in_app_or in I as [I|[<-|[]]]; auto. }
  split.
  { eapply Forall2_imp; [|exact Iq]. intros q g (A & B & C). split; [exact A|]. split; [exact B|]. intros s lg x Is Hl Ix. apply (C s lg x Is Hl). auto. }
  split.
  { intros s x Is Ix. apply in_app_or in Is as [Is|[<-|[]]]; [apply Io; auto|apply Below; exact Ix]. }
  intros d Md Fi.
  assert (Same : at2 f' (rem ++ [l]) d = at2 p rem d).
  { unfold at2. rewrite coef_at_app. cbn [coef_at]. destruct (list_eq_dec _ _ _) as [<-|Ed].
    - rewrite (proj2 (coef_at_None _ _) Nl), (proj2 (coef_at_None _ _) Nlr), (coef_at_In p l Np Il). reflexivity.
    - assert (E : coef_at f' d = coef_at p d).
      { destruct (coef_at f' d) as [c|] eqn:Ec.
        - destruct (coef_at_Some _ _ _ Ec) as (s & Is & <- & <-). symmetry. apply coef_at_In; auto.
        - symmetry. apply coef_at_None. intros I. apply in_map_iff in I as (s & <- & Is).
          assert (I : In s fs) by (eapply Permutation_in; [exact P|exact Is]). rewrite Vp in I. apply in_app_or in I as [I|[<-|[]]]; [|contradiction].
          apply (proj1 (coef_at_None _ _) Ec). apply in_map. exact I. }
      rewrite E. destruct (coef_at p d); [reflexivity|]. destruct (coef_at rem d); reflexivity. }
  apply (same_at p rem); [exact Same|]. apply Ie; [exact Md|]. rewrite <- Same. exact Fi.
Qed.

(** *** a step of reduction *)
Lemma at2_valid p rem d : valid_poly p -> valid_poly rem -> valid t (accu t e (at2 p rem d)).
Proof.
  intros Vp Vr. unfold at2. destruct (coef_at p d) as [c|] eqn:E; [exact (coef_valid t e p d c Vp E)|apply (accu_valid t e); exact Vr].
Qed.
Lemma fin_accu o : fin_opt o -> finite (accu t e o) = true.
Proof. destruct o as [c|]; intros H; [apply H|]; reflexivity. Qed.
Lemma allpairs_split d dp g dn qp q qn : length qp = length dp ->
  allpairs d (qp ++ q :: qn) (dp ++ g :: dn) = allpairs d qp dp ++ pairs d q g ++ allpairs d qn dn.
Proof. intros L. unfold allpairs. rewrite combine_app' by exact L. rewrite flat_map_app. reflexivity. Qed.
Lemma neg_at (q nq : poly F) d : poly_neg q = Ok nq -> coef_at nq d = match coef_at q d with Some x => Some (SFopp x : F) | None => None end.
Proof.
  intros E. destruct (poly_neg_at q nq E) as [_ A]. specialize (A d). destruct (coef_at q d) as [x|]; [|exact A].
  destruct A as (y & Ey & ->). injection Ey as <-. reflexivity.
Qed.
Lemma inv_reduce p quots rem lt qs' a g ag f' : inv p quots rem -> leading_term O p = Ok (Some lt) ->
  try_divisors O lt divs quots = Ok (Some (qs', a, g)) -> term_mul_poly Debug a g = Ok ag -> poly_sub p ag = Ok f' ->
  finite (coef a : float) = true -> inv f' qs' rem.
Proof.
  intros (Cp & Cr & Iq & Io & Ie) El Et Em Es Fa. pose proof (Forall2_len _ _ _ Iq) as L.
  destruct (try_split lt _ _ _ _ _ L Et) as (dp & dn & qp & q & q' & qn & lg & Ed & Eq & L1 & L2 & Eq' & Elg & Etd & Ea).
  pose proof Cp as (Np & Zp & Vap & Mp). pose proof Cr as (Nr & Zr & Var & Mr).
  destruct (lead_max p lt Cp El) as [Ilt Max].
  assert (Ig : In g divs) by (rewrite Ed; apply in_elt). pose proof (Cd g Ig) as Cg. pose proof Cg as (Ng & Zg & Vg & Mg).
  destruct (lead_max g lg Cg Elg) as [Ilg Maxg].
  assert (Zlt : feqb (coef lt) f0 = false) by (unfold nonzero in Zp; rewrite Forall_forall in Zp; exact (Zp lt Ilt)).
  assert (Vlt : valid t (coef lt : float)) by (unfold PropPolyErr.valid_poly in Vap; rewrite Forall_forall in Vap; exact (Vap lt Ilt)).
  (* the quotient term *)
  assert (Ha : (coef a : float) = SFdiv p_ em (coef lt : float) (fone t) /\ mwf (tdeg a) /\ tm lt = mmul (tm lg) (tm a)).
  { unfold term_try_div in Etd. unfold term_is_zero in Etd. rewrite Zlt in Etd. destruct (feqb (coef lg) f0); [discriminate|].
    apply bind_Ok in Etd as (c & Ec & Etd). pose proof (checked_sub_spec _ _ (Mp lt Ilt) (Mg lg Ilg)) as H.
    destruct (mdeg_checked_sub _ _) as [d|]; [|discriminate]. injection Etd as <-. cbn [coef tdeg]. split; [|exact H].
    injection Ec as <-. f_equal. exact (C1 g lg Ig Elg). }
  destruct Ha as (Eca & Ma & Tma).
  assert (Flt : finite (coef lt : float) = true) by (apply div_one_finite; [rewrite <- Eca; exact Fa|exact Vlt]).
  destruct (one_facts (coef lt : float) Vlt Flt) as (Va & Eqa & Cancel). rewrite <- Eca in Va, Eqa, Cancel.
  assert (Za : feqb (coef a) f0 = false).
  { cbn [feqb float_impl f0]. destruct (SFeqb (coef a : float) fzero) eqn:Z; [|reflexivity]. exfalso.
    destruct (zero_value _ Z) as [_ Z']. rewrite Eqa in Z'. cbn [feqb float_impl f0] in Zlt.
    assert (H : SFeqb (coef lt : float) fzero = true); [|congruence]. apply stands_zero. split; [exact Vlt|]. split; [exact Flt|].
    apply Qc_is_canon. rewrite fq_fval, Z'. reflexivity. }
  (* the product *)
  destruct (product_valid t G e g Ng Zg Vg Mg a ag Za Ma Va Em) as [Nag Vag].
  assert (Mag : forall s, In s ag -> mwf (tdeg s) /\ exists b, In b g /\ tm s = mmul (tm a) (tm b)).
  { intros s I. unfold term_mul_poly, poly_mul_term, term_is_zero in Em. rewrite Za in Em. cbn [orb] in Em.
    destruct (poly_is_zero g); [injection Em as <-; destruct I|]. rewrite <- (Forall_forall (fun s => mwf (tdeg s))) in Mg.
    destruct (mul_term_at g a ag Za Zg Ng Mg Ma Em) as (_ & M & _ & _ & B). rewrite Forall_forall in M. split; [exact (M s I)|].
    destruct (B _ _ (coef_at_In ag s Nag I)) as (b & Ib & Eb & _). exists b. split; [exact Ib|]. rewrite Eb. apply mmul_comm. }
  (* the difference *)
  unfold poly_sub in Es. apply bind_Ok in Es as (nag & En & Es). destruct (poly_neg_at ag nag En) as [Dn _].
  assert (Nn : distinct nag) by (unfold distinct; rewrite Dn; exact Nag).
  assert (Vn : valid_poly nag).
  { unfold PropPolyErr.valid_poly. apply Forall_forall. intros s Is. pose proof (coef_at_In nag s Nn Is) as Cs. rewrite (neg_at ag nag _ En) in Cs.
    destruct (coef_at ag (tdeg s)) as [x|] eqn:Ex; [|discriminate]. injection Cs as <-. apply opp_valid. exact (coef_valid t e ag _ x Vag Ex). }
  assert (Mn : forall s, In s nag -> mwf (tdeg s)).
  { intros s Is. assert (I : In (tdeg s) (map tdeg ag)) by (rewrite <- Dn; apply in_map; exact Is). apply in_map_iff in I as (s' & <- & Is'). apply Mag. exact Is'. }
  destruct (poly_add_at nag p f' Es Np Nn) as (Nf & Zf & A). specialize (Zf Zp).
  pose proof (sum_valid t G e p nag f' Np Nn Vap Vn Es) as Vf. pose proof (add_mwf nag p f' Es Mp Mn Np Nn) as Mf.
  assert (Cf : cl f') by (split; [exact Nf|split; [exact Zf|split; [exact Vf|exact Mf]]]).
  (* every degree of the difference is below the leading one *)
  assert (Top : coef_at f' (tdeg lt) = None).
  { specialize (A (tdeg lt)). rewrite (coef_at_In p lt Np Ilt), (neg_at ag nag _ En) in A.
    destruct (one_pair t e g Ng Zg Mg a ag (tdeg lt) Za Ma (Mp lt Ilt) Em) as [[_ Ep]|(b & Ep & Ib & Es')].
    - exfalso. assert (D : deg_sum (tdeg lt) (tdeg a) (tdeg lg) = true) by (apply canon_sum; rewrite mmul_comm; exact Tma).
      unfold PropPolyErr.pairs in Ep. cbn [flat_map] in Ep. rewrite app_nil_r in Ep. apply map_eq_nil in Ep.
      assert (H : In lg (filter (fun b => deg_sum (tdeg lt) (tdeg a) (tdeg b)) g)) by (apply filter_In; auto). rewrite Ep in H. destruct H.
    - assert (Eb : (coef b : float) = fone t).
      { assert (D : In (coef a : float, coef b : float) (pairs (tdeg lt) [a] g)) by (rewrite Ep; left; reflexivity).
        assert (D' : In (coef a : float, coef lg : float) (pairs (tdeg lt) [a] g)).
        { unfold PropPolyErr.pairs. cbn [flat_map]. rewrite app_nil_r. apply in_map_iff. exists lg. split; [reflexivity|]. apply filter_In. split; [exact Ilg|].
          apply canon_sum. rewrite mmul_comm. exact Tma. }
        rewrite Ep in D'. destruct D' as [D'|[]]. injection D' as ->. exact (C1 g lg Ig Elg). }
      rewrite Es', Eb in A. cbn [sum_at] in A. unfold sum_at in A. cbn [feqb float_impl f0 fadd] in A.
      assert (Nz : SFeqb (SFopp (SFmul p_ em (fone t) (coef a : float))) fzero = false).
      { destruct (SFeqb _ fzero) eqn:Z in |- *; [|reflexivity]. exfalso. rewrite SFeqb_opp in Z.
        pose proof (mul_exact t G (fone t) (coef a : float) 1%Qc (fval (coef a : float)) (fone_val t G) (conj Va (conj Fa eq_refl))) as H.
        assert (E2 : (1 * fval (coef a : float) = fval (coef a : float))%Qc) by ring. rewrite E2 in H.
        destruct H as (_ & _ & H); [exists (coef a : float); repeat split; assumption|].
        destruct (zero_value _ Z) as [_ Z']. rewrite <- fq_fval, H, fq_fval, Eqa in Z'. cbn [feqb float_impl f0] in Zlt.
        assert (H' : SFeqb (coef lt : float) fzero = true); [|congruence]. apply stands_zero. split; [exact Vlt|]. split; [exact Flt|].
        apply Qc_is_canon. rewrite fq_fval, Z'. reflexivity. }
      rewrite Nz in A. destruct A as (z & Ez & A). injection Ez as <-. rewrite Cancel in A. exact A. }
  assert (Below : forall x, In x f' -> olt (tm x) (tm lt)).
  { intros x Ix. assert (H : mle (tm x) (tm lt)).
    { destruct (poly_add_degs nag p f' x Es Ix) as (s & [Is|Is] & Ex).
      - rewrite <- Ex. apply Max. exact Is.
      - rewrite <- Ex. assert (I : In (tdeg s) (map tdeg ag)) by (rewrite <- Dn; apply in_map; exact Is). apply in_map_iff in I as (s' & Es' & Is').
        rewrite <- Es'. destruct (Mag s' Is') as (_ & b & Ib & ->). rewrite Tma, (mmul_comm (tm lg)). apply (mle_mul olt laws). apply Maxg. exact Ib. }
    destruct H as [H|H]; [|exact H]. exfalso. apply (proj1 (coef_at_None _ _) Top). rewrite <- (deg_of x lt (Mf x Ix) (Mp lt Ilt) H). apply in_map. exact Ix. }
  (* the quotient is extended *)
  subst quots qs'. rewrite Ed in Iq. apply Forall2_app_inv_l in Iq as (g1 & g2 & I1 & I2 & Eg). 
  assert (Eg' : g1 = dp /\ g2 = g :: dn).
  { pose proof (Forall2_len _ _ _ I1) as L3. assert (LL : length g1 = length dp) by congruence. clear - Eg LL. revert dp Eg LL. induction g1 as [|x g1 IH]; intros [|y dp] Eg LL; try discriminate LL; [auto|].
    cbn [app] in Eg. injection Eg as <- Eg. injection LL as LL. destruct (IH dp Eg LL) as [-> ->]. auto. }
  destruct Eg' as [-> ->]. clear Eg. inversion I2 as [|? ? ? ? Iqg I3]; subst. destruct Iqg as (Nq & Vq & Bq).
  assert (Na : ~ In (tdeg a) (map tdeg q)).
  { intros I. apply in_map_iff in I as (s & Eds & Is). pose proof (Bq s lg lt Is Elg Ilt) as H. rewrite Eds, mmul_comm, <- Tma in H. apply (lt_irrefl olt laws _ H). }
  pose proof (add_term_new q q' a Za Na Ea) as ->.
  assert (Mono : forall q0 g0, qok p q0 g0 -> qok f' q0 g0).
  { intros q0 g0 (H1 & H2 & H3). split; [exact H1|]. split; [exact H2|]. intros s l x Is Hl Ix. eapply (lt_trans olt laws); [apply Below; exact Ix|apply (H3 s l lt Is Hl Ilt)]. }
  split; [exact Cf|]. split; [exact Cr|]. split.
  { rewrite Ed. apply Forall2_app; [eapply Forall2_imp; [exact Mono|exact I1]|]. constructor; [|eapply Forall2_imp; [exact Mono|exact I3]].
    split; [unfold distinct; rewrite map_app; apply nodup_snoc; assumption|]. split; [apply Forall_app; split; [exact Vq|constructor; [exact Va|constructor]]|].
    intros s l x Is Hl Ix. rewrite Elg in Hl. injection Hl as <-. apply in_app_or in Is as [Is|[<-|[]]].
    - eapply (lt_trans olt laws); [apply Below; exact Ix|apply (Bq s lg lt Is Elg Ilt)].
    - rewrite mmul_comm, <- Tma. apply Below. exact Ix. }
  split.
  { intros s x Is Ix. eapply (lt_trans olt laws); [apply Below; exact Ix|apply (Io s lt Is Ilt)]. }
  (* the error *)
  intros d Md Fi. specialize (A d). rewrite (neg_at ag nag d En) in A.
  destruct (one_pair t e g Ng Zg Mg a ag d Za Ma Md Em) as [[En' Ep]|(b & Ep & Ib & Eb)].
  - rewrite En' in A. cbn [sum_at] in A. assert (Same : at2 f' rem d = at2 p rem d) by (unfold at2; rewrite A; reflexivity).
    rewrite Same in Fi. specialize (Ie d Md Fi). unfold close in *. rewrite Ed in Ie. rewrite Ed. rewrite Same. rewrite allpairs_split in Ie by exact L1. rewrite allpairs_split by exact L1.
    rewrite (pairs_app t e g d q [a]), Ep, app_nil_r. exact Ie.
  - rewrite Eb in A.
    assert (Dd : mle (canon d) (tm lt)).
    { destruct (coef_at_Some _ _ _ Eb) as (s & Is & <- & _). destruct (Mag s Is) as (_ & b' & Ib' & ->). rewrite Tma, (mmul_comm (tm lg)). apply (mle_mul olt laws). apply Maxg. exact Ib'. }
    assert (Rd : coef_at rem d = None).
    { apply coef_at_None. intros I. apply in_map_iff in I as (s & <- & Is). pose proof (Io s lt Is Ilt) as H. apply (lt_irrefl olt laws (tm lt)). eapply (lt_mle_trans olt laws); eassumption. }
    assert (E1 : at2 f' rem d = coef_at f' d) by (unfold at2; rewrite Rd; destruct (coef_at f' d); reflexivity).
    assert (E2 : at2 p rem d = coef_at p d) by (unfold at2; rewrite Rd; destruct (coef_at p d); reflexivity).
    rewrite E1 in Fi. destruct (opt_step t e _ _ _ A Fi) as (Fp & Fz & Ev). rewrite <- E2 in Fp. specialize (Ie d Md Fp).
    unfold close in *. rewrite Ed in Ie. rewrite Ed. rewrite E1. rewrite E2 in Ie. rewrite allpairs_split in Ie by exact L1. rewrite allpairs_split by exact L1.
    rewrite (pairs_app t e g d q [a]), Ep. set (ca := coef a : float) in *. set (cb := coef b : float) in *.
    assert (Vb : valid t cb) by (unfold PropPolyErr.valid_poly in Vg; rewrite Forall_forall in Vg; exact (Vg b Ib)).
    set (l1 := allpairs d qp dp) in *. set (l2 := pairs d q g) in *. set (l3 := allpairs d qn dn) in *.
    rewrite (mul_comm_float t) in Ev, Fz. rewrite <- mul_opp in Ev, Fz. rewrite accu_value in Ie.
    assert (SA : (Qabs (coef_value f d - product_sum (l1 ++ l2 ++ l3)) <= Qabs (coef_value f d) + abs_sum (l1 ++ l2 ++ l3))%Q).
    { unfold Qminus. eapply Qle_trans; [apply Qabs_triangle|]. apply Qplus_le_r. rewrite Qabs_opp. apply abs_le. }
    pose proof (dstep_err t G (accu t e (coef_at p d)) (SFopp ca, cb) _ _ _ (accu_valid t e p d Vap) (opp_valid t ca Va) Vb Fz SA Ie) as H.
    unfold dstep, dprod in H. cbn [fst snd] in H. rewrite Ev in H.
    assert (Eo : (fq (SFopp ca) * fq cb == - (fq ca * fq cb))%Q) by (rewrite fq_opp; ring).
    set (S0 := (coef_value f d - product_sum (l1 ++ l2 ++ l3))%Q) in *. set (A0 := (Qabs (coef_value f d) + abs_sum (l1 ++ l2 ++ l3))%Q) in *.
    assert (H' : (Qabs (opt_value (coef_at f' d) - (S0 + - (fq ca * fq cb))) <= dbound t (S (length (l1 ++ l2 ++ l3))) (A0 + Qabs (fq ca * fq cb)))%Q).
    { eapply Qle_trans; [|eapply Qle_trans; [exact H|]].
      - rewrite Eo. apply Qle_refl.
      - unfold dbound. rewrite Eo, Qabs_opp. apply Qle_refl. }
    clear H. unfold S0, A0 in H'.
    assert (P1 : (product_sum (l1 ++ (l2 ++ [(ca, cb)]) ++ l3) == product_sum (l1 ++ l2 ++ l3) + fq ca * fq cb)%Q).
    { rewrite !psum_app. assert (X : (product_sum [(ca, cb)] == fq ca * fq cb)%Q) by (unfold product_sum; cbn [map qsum fold_right fst snd]; ring). rewrite X. ring. }
    assert (P2 : (abs_sum (l1 ++ (l2 ++ [(ca, cb)]) ++ l3) == abs_sum (l1 ++ l2 ++ l3) + Qabs (fq ca * fq cb))%Q).
    { rewrite !asum_app. assert (X : (abs_sum [(ca, cb)] == Qabs (fq ca * fq cb))%Q) by (unfold abs_sum; cbn [map qsum fold_right fst snd]; ring). rewrite X. ring. }
    assert (P3 : length (l1 ++ (l2 ++ [(ca, cb)]) ++ l3) = S (length (l1 ++ l2 ++ l3))) by (rewrite !app_length; cbn [length]; lia).
    rewrite P3, P1. assert (X : (opt_value (coef_at f' d) - (coef_value f d - (product_sum (l1 ++ l2 ++ l3) + fq ca * fq cb)) ==
      opt_value (coef_at f' d) - (coef_value f d - product_sum (l1 ++ l2 ++ l3) + - (fq ca * fq cb)))%Q) by ring. rewrite X.
    eapply Qle_trans; [exact H'|]. unfold dbound. rewrite P2, Qplus_assoc. apply Qle_refl.
Qed.

Lemma inv_loop : forall n p quots rem r qs, inv p quots rem -> divide_loop Debug O n p divs quots rem = Ok (r, qs) -> Forall fin_poly qs -> inv [] qs r.
Proof.
  induction n as [|n IH]; intros p quots rem r qs I E Fq; pose proof E as E0; cbn [divide_loop] in E; apply bind_Ok in E as (o & El & E); destruct o as [lt|]; try discriminate.
  1, 3: injection E as <- <-; destruct p as [|x p]; [exact I|]; exfalso; unfold leading_term, max_by in El; apply bind_Ok in El as (z & _ & El); discriminate.
  apply bind_Ok in E as (o & Et & E). destruct o as [[[qs' a] g]|].
  - apply bind_Ok in E as (ag & Em & E). apply bind_Ok in E as (f' & Es & E). apply (IH f' qs' rem r qs); [|exact E|exact Fq].
    apply (inv_reduce p quots rem lt qs' a g ag f' I El Et Em Es). destruct I as (_ & _ & Iq & _).
    apply (step_fin divs n p quots rem r qs lt qs' a g ag f' (Forall2_len _ _ _ Iq)); try assumption.
    clear - Iq. induction Iq as [|q g qs gs H _ IH]; constructor; [apply H|exact IH].
  - apply bind_Ok in E as (fs & Es & E). destruct (vec_pop fs) as [f' [l|]] eqn:Ev.
    + apply bind_Ok in E as (rem' & Ea & E). apply (IH f' quots rem' r qs); [|exact E|exact Fq]. exact (inv_pop p quots rem lt fs f' l rem' I El Es Ev Ea).
    + exfalso. pose proof (vec_pop_spec fs) as Vp. rewrite Ev in Vp. destruct Vp as [-> _].
      assert (W : Forall dwf p) by (apply Forall_forall; apply I). pose proof (safe_val _ _ _ (sort_ok OS p W) Es) as (P & _).
      apply Permutation_sym, Permutation_nil in P. rewrite P in El. discriminate.
Qed.
Lemma inv_start : cl f -> inv f (repeat poly_zero (length divs)) poly_zero.
Proof.
  intros Cf. split; [exact Cf|]. split; [split; [constructor|split; [constructor|split; [constructor|intros s []]]]|].
  split; [clear; induction divs; cbn [length repeat]; constructor; [split; [constructor|split; [constructor|intros s lg x []]]|assumption]|].
  split; [intros s x []|]. intros d Md Fi.
  assert (E : allpairs d (repeat poly_zero (length divs)) divs = []) by (clear; unfold allpairs; induction divs; [reflexivity|exact IHl]).
  unfold close. rewrite E. assert (E1 : at2 f poly_zero d = coef_at f d) by (unfold at2; destruct (coef_at f d); reflexivity). rewrite E1.
  fold (coef_value f d). unfold product_sum, abs_sum. cbn [map qsum fold_right length].
  assert (X : (opt_value (coef_at f d) - (coef_value f d - 0) == 0)%Q) by (unfold PropPolyErr.coef_value; ring). rewrite X. change (Qabs 0) with 0%Q.
  unfold dbound. change (inject_Z (Z.of_nat 0)) with 0%Q. rewrite Qmult_0_l, Qmult_0_l, Qplus_0_r, Qplus_0_r.
  apply Qmult_le_0_compat; [|apply Qabs_nonneg].
  pose proof (gpow_ge t 1). lra.
Qed.
End Loop.
End DivErr.
