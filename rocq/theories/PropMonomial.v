(** * Property C129: buchberger_algorithm on monomials.

    The generators are single terms c x^a.  [inv_exact c] says that 1/c and c * (1/c) are computed without panic or rounding; for
    Rational, f32, f64 and exact fields see below. *)
From Coq Require Import ZArith QArith Qcanon Lia Ring Field.
From Verif Require Import Base BaseLemmas IntModel RatModel FieldIface IntProofs RatProofs NumFacts MDegModel OrdModel PolyModel CompModel
  MonoSpec MDegProofs OrdProofs PolySpec PolyProofs GroebnerSpec DivProofs GbProofs Ideal FloatModel FloatExact PropFloat BoundProofs PropBounds.
From Coq Require Import SpecFloat.
Local Open Scope nat_scope.

(** ** the statement *)
(** x^a divides x^b *)
Definition divb (a b : mdeg) : bool := forallb (fun i => nth i a 0 <=? nth i b 0) (seq 0 (length a)).
Lemma divb_iff a b : divb a b = true <-> forall i, expo a i <= expo b i.
Proof.
  unfold divb. rewrite forallb_forall. split.
  - intros H i. destruct (Nat.lt_ge_cases i (length a)) as [L|L].
    + apply Nat.leb_le. apply H. apply in_seq. lia.
    + unfold expo. rewrite (nth_overflow a) by exact L. lia.
  - intros H i _. apply Nat.leb_le. apply H.
Qed.

Section Monomial.
Context {F : FieldImpl}.
Notation term := (term F).
Notation poly := (poly F).

(** the terms that are left: no earlier degree is a proper divisor of the degree, no later degree is a divisor of it *)
Fixpoint last_minimal (before ts : list term) : list term :=
  match ts with
  | [] => []
  | t :: ts' =>
      (if forallb (fun s => negb (divb (tdeg s) (tdeg t)) || divb (tdeg t) (tdeg s)) before && forallb (fun s => negb (divb (tdeg s) (tdeg t))) ts' then [t] else [])
      ++ last_minimal (before ++ [t]) ts'
  end.
Definition inv_exact (c : F) : Prop := feqb c f0 = false /\ exists a, fdiv f1 c = Ok a /\ feqb a f0 = false /\ fmul c a = Ok f1.
(** 1 is not 0, -1 is not 0, 1 + (-1) is 0 *)
Definition one_cancels : Prop := feqb (f1 : F) f0 = false /\ exists w z : F, fneg f1 = Ok w /\ feqb w f0 = false /\ fadd f1 w = Ok z /\ feqb z f0 = true.
Definition monomial (t : term) : Prop := mwf (tdeg t) /\ inv_exact (coef t).

(** ** proofs *)
Lemma lcm_parts a b : mwf a -> mwf b -> exists d, mdeg_checked_sub (mdeg_lcm a b) a = Some d /\ mdeg_add Debug a d = Ok (mdeg_lcm a b).
Proof.
  intros Wa Wb. destruct (mdeg_lcm_wf a b Wa Wb) as [Wl _]. pose proof (mdeg_lcm_zip a b) as Z.
  assert (E : forall i, expo (mdeg_lcm a b) i = Nat.max (expo a i) (expo b i)) by (intros i; rewrite Z; apply lzip_expo; reflexivity).
  destruct (checked_sub_full (mdeg_lcm a b) a (proj1 Wl) (proj1 Wa)) as [(d & Ed & _ & Cd & Xd)|(_ & N)].
  2:{ destruct N. intros i. rewrite E. lia. }
  exists d. split; [exact Ed|].
  assert (Ud : u8s d). { apply expo_u8. intros i. rewrite Xd. pose proof (u8_expo _ i (proj2 Wl)). lia. }
  assert (S : forall i, expo (lzip Nat.add a d) i = expo (mdeg_lcm a b) i).
  { intros i. rewrite lzip_expo by reflexivity. rewrite Xd, E. lia. }
  pose proof (mdeg_add_safe a d (proj2 Wa) Ud) as SF. rewrite (mdeg_add_debug a d (proj2 Wa) Ud) in SF |- *.
  assert (U : forallb (fun x => x <=? 255) (lzip Nat.add a d) = true).
  { apply forallb_u8, expo_u8. intros i. rewrite S. apply u8_expo. apply Wl. }
  rewrite U in *. cbn [safe] in SF. destruct SF as [Wc Cc]. f_equal. apply canonical_ext; [apply Wc|apply Wl|]. intros i. rewrite <- (canon_exp (ltrim _)), Cc, <- S, lzip_expo by reflexivity.
  rewrite mmul_exp, !canon_exp. reflexivity.
Qed.
Lemma eqb_refl_deg d : mdeg_eqb d d = true.
Proof. apply mdeg_eqb_eq. reflexivity. Qed.
Lemma lcm_comm a b : mwf a -> mwf b -> mdeg_lcm a b = mdeg_lcm b a.
Proof.
  intros Wa Wb. apply canonical_ext; [apply mdeg_lcm_wf; assumption..|]. intros i. rewrite !mdeg_lcm_zip, !lzip_expo by reflexivity. apply Nat.max_comm.
Qed.

Context (O : ord_impl) (One : one_cancels).
Lemma lead_single (t : term) : leading_term O [t] = Ok (Some t).
Proof. reflexivity. Qed.
Lemma spoly_monomials (s t : term) : monomial s -> monomial t -> try_reduce Debug O [s] [t] = Ok (Some []).
Proof.
  intros [Ws (Ns & a & Da & Za & Ma)] [Wt (Nt & b & Db & Zb & Mb)]. destruct One as (N1 & w & z & Ew & Zw & Ez & Zz).
  unfold try_reduce. rewrite !lead_single. cbn [bind].
  assert (E : monic_lcm s t = term_monic (mdeg_lcm (tdeg s) (tdeg t))) by (unfold monic_lcm, term_is_zero; rewrite Ns, Nt; reflexivity).
  rewrite E. destruct (lcm_parts _ _ Ws Wt) as (d & Ed & Ad). destruct (lcm_parts _ _ Wt Ws) as (d' & Ed' & Ad'). rewrite (lcm_comm _ _ Wt Ws) in *.
  unfold term_try_div, term_is_zero, term_monic. cbn [coef tdeg]. rewrite N1, Ns, Nt, Da, Db. cbn [bind]. rewrite Ed, Ed'. cbn [bind].
  unfold term_mul_poly, poly_mul_term, term_is_zero. cbn [coef poly_is_zero orb]. rewrite Za. cbn [orb mapM]. unfold term_mul, term_is_zero. cbn [coef tdeg].
  rewrite Ns, Za. cbn [orb]. rewrite Ma. cbn [bind]. rewrite Ad. cbn [bind]. rewrite Zb. cbn [orb]. rewrite Nt, Mb. cbn [bind orb]. rewrite Ad'. cbn [bind].
  unfold poly_sub, poly_neg. cbn [mapM]. unfold term_neg. cbn [coef tdeg]. rewrite Ew. cbn [bind]. unfold poly_add. cbn [foldM]. unfold poly_add_term. cbn [poly_is_zero].
  unfold term_is_zero. cbn [coef tdeg position]. rewrite Zw, eqb_refl_deg. cbn [vget nth_error bind coef tdeg]. rewrite Ez. cbn [bind]. rewrite Zz. reflexivity.
Qed.
Lemma divide_zero n (gs : list poly) : divide Debug O n [] gs = Ok ([], repeat poly_zero (length gs)).
Proof. unfold divide. destruct n; reflexivity. Qed.

Notation single := (map (fun t : term => [t])).
Lemma vget_single (ts : list term) i : vget (single ts) i = match nth_error ts i with Some t => Ok [t] | None => Panic IndexOOB end.
Proof. unfold vget. rewrite nth_error_map. destruct (nth_error ts i); reflexivity. Qed.
Lemma extend_inner_none n ts i js : Forall monomial ts -> i < length ts -> Forall (fun j => j < length ts) js -> extend_inner Debug O n (single ts) i js = Ok None.
Proof.
  intros M Hi. induction 1 as [|j js Hj _ IH]; [reflexivity|]. cbn [extend_inner]. rewrite !vget_single.
  destruct (nth_error ts i) as [s|] eqn:Es; [|apply nth_error_None in Es; lia]. destruct (nth_error ts j) as [t|] eqn:Et; [|apply nth_error_None in Et; lia].
  cbn [bind]. rewrite Forall_forall in M. rewrite spoly_monomials by (apply M; eapply nth_error_In; eassumption). cbn [bind unwrap]. rewrite divide_zero. cbn [bind]. exact IH.
Qed.
Lemma extend_none d n ts i : Forall monomial ts -> length ts - i <= n -> extend_loop Debug O d n (single ts) i = Ok (single ts).
Proof.
  intros M. revert i. induction n as [|n IH]; intros i L; cbn [extend_loop]; rewrite map_length; destruct (Nat.ltb_spec i (length ts)) as [H|H]; try reflexivity; [lia|].
  rewrite extend_inner_none; [|exact M|exact H|apply Forall_forall; intros j Hj; apply in_seq in Hj; lia]. cbn [bind]. apply IH. lia.
Qed.

(** *** minimize *)
Definition dv (t u : term) : bool := divb (tdeg t) (tdeg u).
Lemma divides_dv (t u : term) : monomial t -> term_divides t u = dv t u.
Proof.
  intros [W (N & _)]. unfold term_divides, term_is_zero, dv. rewrite N. cbn [negb andb]. apply Bool.eq_true_iff_eq. rewrite is_succ_expo by apply W. symmetry. apply divb_iff.
Qed.
Lemma dv_trans t u v : dv t u = true -> dv u v = true -> dv t v = true.
Proof. unfold dv. rewrite !divb_iff. intros H1 H2 i. etransitivity; [apply H1|apply H2]. Qed.
Definition valid (n : nat) (p : nat * nat) : Prop := fst p < n /\ snd p < n.
Lemma pairs_valid n : Forall (valid n) (pairs_iter n).
Proof.
  apply Forall_forall. intros [i j] H. unfold pairs_iter in H. apply filter_In in H as [H _]. unfold cartesian in H. apply in_flat_map in H as (i' & Hi & H).
  apply in_map_iff in H as (j' & E & Hj). injection E as <- <-. apply in_seq in Hi, Hj. split; cbn; lia.
Qed.
Lemma pairs_in n i j : i < n -> j < n -> i <> j -> In (i, j) (pairs_iter n).
Proof.
  intros Hi Hj N. apply filter_In. split; [|cbn; destruct (Nat.eqb_spec i j); [contradiction|reflexivity]].
  apply in_flat_map. exists i. split; [apply in_seq; lia|]. apply in_map. apply in_seq. lia.
Qed.
Lemma pairs_neq n i j : In (i, j) (pairs_iter n) -> i <> j.
Proof. intros H. apply filter_In in H as [_ H]. cbn in H. destruct (Nat.eqb_spec i j); [discriminate|assumption]. Qed.
(** pairs with a smaller first entry come first *)
Inductive rising : list (nat * nat) -> Prop :=
| rising_nil : rising []
| rising_cons p l : (forall q, In q l -> fst p <= fst q) -> rising l -> rising (p :: l).
Lemma rising_app l m : rising l -> rising m -> (forall p q, In p l -> In q m -> fst p <= fst q) -> rising (l ++ m).
Proof.
  induction 1 as [|p l H _ IH]; intros M X; [exact M|]. cbn. constructor; [|apply IH; [exact M|intros; apply X; [right|]; assumption]].
  intros q Hq. apply in_app_iff in Hq as [Hq|Hq]; [apply H; exact Hq|apply X; [left; reflexivity|exact Hq]].
Qed.
Lemma rising_filter f l : rising l -> rising (filter f l).
Proof.
  induction 1 as [|p l H _ IH]; [constructor|]. cbn. destruct (f p); [|exact IH]. constructor; [|exact IH]. intros q Hq. apply filter_In in Hq as [Hq _]. apply H. exact Hq.
Qed.
Lemma pairs_rising n : rising (pairs_iter n).
Proof.
  apply rising_filter. unfold cartesian. generalize (seq 0 n) at 1 as js. generalize 0 as a. induction n as [|n IH]; intros a js; [constructor|]. cbn [seq flat_map].
  apply rising_app; [|apply IH|].
  - induction js as [|j js IHj]; [constructor|]. cbn. constructor; [|exact IHj]. intros q Hq. apply in_map_iff in Hq as (j' & <- & _). cbn. lia.
  - intros p q Hp Hq. apply in_map_iff in Hp as (j & <- & _). apply in_flat_map in Hq as (i & Hi & Hq). apply in_map_iff in Hq as (j' & <- & _). apply in_seq in Hi. cbn. lia.
Qed.
Lemma find_first ts ps : Forall monomial ts -> Forall (valid (length ts)) ps -> exists o, minimize_find O (single ts) ps = Ok o /\
  match o with
  | None => forall i j s t, In (i, j) ps -> nth_error ts i = Some s -> nth_error ts j = Some t -> dv t s = false
  | Some i => exists j s t ps1 ps2, ps = ps1 ++ (i, j) :: ps2 /\ nth_error ts i = Some s /\ nth_error ts j = Some t /\ dv t s = true /\
      forall i' j' s' t', In (i', j') ps1 -> nth_error ts i' = Some s' -> nth_error ts j' = Some t' -> dv t' s' = false
  end.
Proof.
  intros M V. induction V as [|[i j] ps [Hi Hj] _ IH]; [exists None; split; [reflexivity|intros ? ? ? ? []]|]. cbn [fst snd] in *.
  cbn [minimize_find]. rewrite !vget_single.
  destruct (nth_error ts i) as [s|] eqn:Es; [|apply nth_error_None in Es; lia]. destruct (nth_error ts j) as [t|] eqn:Et; [|apply nth_error_None in Et; lia].
  cbn [bind]. rewrite !lead_single. cbn [bind unwrap]. rewrite divides_dv by (rewrite Forall_forall in M; apply M; eapply nth_error_In; eassumption).
  destruct (dv t s) eqn:D.
  - exists (Some i). split; [reflexivity|]. exists j, s, t, [], ps. repeat (split; [assumption || reflexivity|]). intros ? ? ? ? [].
  - destruct IH as (o & Eo & H). exists o. split; [exact Eo|]. destruct o as [i0|].
    + destruct H as (j0 & s0 & t0 & ps1 & ps2 & -> & H1 & H2 & H3 & H4). exists j0, s0, t0, ((i, j) :: ps1), ps2. repeat (split; [assumption || reflexivity|]).
      intros i' j' s' t' [E|I] Hs Ht; [injection E as -> ->; congruence|eapply H4; eassumption].
    + intros i' j' s' t' [E|I] Hs Ht; [injection E as -> ->; congruence|eapply H; eassumption].
Qed.
(** what survives does not change when an element with a divisor elsewhere is removed, provided no element before it has one *)
Lemma drop_later l1 x l2 : (exists y, In y (l1 ++ l2) /\ dv y x = true) ->
  forall r s, l2 = r ++ s -> last_minimal (l1 ++ x :: r) s = last_minimal (l1 ++ r) s.
Proof.
  intros (y & Hy & Dy) r s. revert r. induction s as [|k s IH]; intros r E; [reflexivity|]. cbn [last_minimal].
  assert (E' : l2 = (r ++ [k]) ++ s) by (rewrite E, <- app_assoc; reflexivity). specialize (IH _ E').
  rewrite <- (app_assoc l1 (x :: r) [k]). rewrite <- app_assoc. cbn [app]. rewrite IH. f_equal.
  match goal with |- (if ?a then _ else _) = (if ?b then _ else _) => assert (X : a = b); [|rewrite X; reflexivity] end.
  rewrite !forallb_app. cbn [forallb]. fold (dv x k) (dv k x).
  destruct (dv x k) eqn:Dx; cbn [negb orb andb]; [|reflexivity]. destruct (dv k x) eqn:Dk; cbn [andb]; [reflexivity|].
  rewrite andb_false_r. cbn [andb]. symmetry.
  assert (Yk : dv y k = true) by (apply (dv_trans y x k); assumption).
  assert (Ky : dv k y = false). { destruct (dv k y) eqn:Q; [|reflexivity]. rewrite (dv_trans k y x Q Dy) in Dk. discriminate. }
  rewrite E in Hy. rewrite app_assoc in Hy. apply in_app_iff in Hy as [Hy|[<-|Hy]].
  - apply andb_false_iff. left. rewrite <- forallb_app. apply Bool.not_true_is_false. intros H. rewrite forallb_forall in H. specialize (H y Hy). fold (dv y k) (dv k y) in H. rewrite Yk, Ky in H. discriminate.
  - rewrite Dy in Dk. discriminate.
  - apply andb_false_iff. right. apply Bool.not_true_is_false. intros H. rewrite forallb_forall in H. specialize (H y Hy). fold (dv y k) in H. rewrite Yk in H. discriminate.
Qed.
Lemma drop_one l1 x l2 : (exists y, In y (l1 ++ l2) /\ dv y x = true) ->
  (forall p k q, l1 = p ++ k :: q -> forall y, In y (p ++ q ++ x :: l2) -> dv y k = false) ->
  last_minimal [] (l1 ++ x :: l2) = last_minimal [] (l1 ++ l2).
Proof.
  intros B A.
  assert (G : forall q p, l1 = p ++ q -> last_minimal p (q ++ x :: l2) = last_minimal p (q ++ l2)); [|exact (G l1 [] eq_refl)].
  induction q as [|k q IH]; intros p E.
  - rewrite app_nil_r in E. subst p. cbn [app last_minimal]. rewrite (drop_later l1 x l2 B [] l2 eq_refl). rewrite app_nil_r.
    match goal with |- (if ?a then _ else _) ++ _ = _ => assert (X : a = false); [|rewrite X; reflexivity] end.
    destruct B as (y & Hy & Dy). apply in_app_iff in Hy as [Hy|Hy].
    + apply andb_false_iff. left. apply Bool.not_true_is_false. intros H. rewrite forallb_forall in H. specialize (H y Hy). fold (dv y x) (dv x y) in H.
      apply in_split in Hy as (p & q & ->). rewrite Dy, (A p y q eq_refl x) in H; [discriminate|]. apply in_app_iff. right. apply in_app_iff. right. left. reflexivity.
    + apply andb_false_iff. right. apply Bool.not_true_is_false. intros H. rewrite forallb_forall in H. specialize (H y Hy). fold (dv y x) in H. rewrite Dy in H. discriminate.
  - cbn [app last_minimal]. rewrite (IH (p ++ [k])) by (rewrite E, <- app_assoc; reflexivity). f_equal.
    assert (X : forall l, (forall y, In y l -> dv y k = false) -> forallb (fun s => negb (divb (tdeg s) (tdeg k))) l = true).
    { intros l H. apply forallb_forall. intros y Hy. fold (dv y k). rewrite (H y Hy). reflexivity. }
    assert (Y : forall l, (forall y, In y l -> dv y k = false) -> forallb (fun s => negb (divb (tdeg s) (tdeg k)) || divb (tdeg k) (tdeg s)) l = true).
    { intros l H. apply forallb_forall. intros y Hy. fold (dv y k). rewrite (H y Hy). reflexivity. }
    pose proof (A p k q E) as H. rewrite !X, !Y; try reflexivity; intros y Hy; apply H; apply in_app_iff; auto; right; apply in_app_iff; auto.
    apply in_app_iff in Hy as [Hy|Hy]; [left; exact Hy|right; right; exact Hy].
Qed.
Definition free (ts : list term) : Prop := forall i j s t, i <> j -> nth_error ts i = Some s -> nth_error ts j = Some t -> dv t s = false.
Lemma free_split ts p k q : free ts -> ts = p ++ k :: q -> forall y, In y (p ++ q) -> dv y k = false.
Proof.
  intros H -> y Hy. apply In_nth_error in Hy as (j & Ej).
  assert (Ek : nth_error (p ++ k :: q) (length p) = Some k) by (rewrite nth_error_app2 by lia; rewrite Nat.sub_diag; reflexivity).
  destruct (Nat.lt_ge_cases j (length p)) as [L|L].
  - apply (H (length p) j k y); [lia|exact Ek|]. rewrite nth_error_app1 in * by lia. exact Ej.
  - apply (H (length p) (S j) k y); [lia|exact Ek|]. rewrite nth_error_app2 in * by lia. replace (S j - length p) with (S (j - length p)) by lia. exact Ej.
Qed.
Lemma free_all ts : free ts -> last_minimal [] ts = ts.
Proof.
  intros Fr. assert (G : forall q p, ts = p ++ q -> last_minimal p q = q); [|exact (G ts [] eq_refl)].
  induction q as [|k q IH]; intros p E; [reflexivity|]. cbn [last_minimal]. rewrite (IH (p ++ [k])) by (rewrite E, <- app_assoc; reflexivity).
  pose proof (free_split ts p k q Fr E) as H.
  match goal with |- (if ?a then _ else _) ++ _ = _ => assert (X : a = true); [|rewrite X; reflexivity] end.
  apply andb_true_iff. split; apply forallb_forall; intros y Hy; fold (dv y k); rewrite H by (apply in_app_iff; auto); reflexivity.
Qed.
Lemma remove_single ts l1 x l2 : ts = l1 ++ x :: l2 -> list_remove (single ts) (length l1) = single (l1 ++ l2).
Proof. intros ->. induction l1 as [|y l1 IH]; [reflexivity|]. cbn. f_equal. exact IH. Qed.
Lemma minimize_all n ts : Forall monomial ts -> length ts < n ->
  minimize_loop O n (single ts) = Ok (single (last_minimal [] ts)) /\ free (last_minimal [] ts) /\ Forall monomial (last_minimal [] ts) /\
  forall t, In t ts -> exists u, In u (last_minimal [] ts) /\ dv u t = true.
Proof.
  revert ts. induction n as [|n IH]; intros ts M L; [lia|]. cbn [minimize_loop]. rewrite map_length.
  destruct (find_first ts (pairs_iter (length ts)) M (pairs_valid _)) as (o & -> & H). cbn [bind]. destruct o as [i|].
  - destruct H as (j & s & t & ps1 & ps2 & E & Hi & Hj & D & A).
    assert (I : In (i, j) (pairs_iter (length ts))) by (rewrite E; apply in_app_iff; right; left; reflexivity).
    pose proof (pairs_neq _ _ _ I) as Nij. destruct (nth_error_split _ _ Hi) as (l1 & l2 & Ets & Li).
    assert (First : forall i' j', i' < i -> j' < length ts -> i' <> j' -> In (i', j') ps1).
    { intros i' j' Hi' Hj' N'. assert (Li' : i < length ts) by (apply nth_error_Some; congruence).
      pose proof (pairs_in (length ts) i' j' ltac:(lia) Hj' N') as I'. pose proof (pairs_rising (length ts)) as Rs. rewrite E in I', Rs.
      apply in_app_iff in I' as [I'|I']; [exact I'|exfalso]. clear - Rs I' Hi'. induction ps1 as [|p ps1 IHp]; cbn [app] in Rs; inversion Rs as [|? ? X Y]; subst; [|auto].
      destruct I' as [Q|Q]; [injection Q as -> ->; lia|]. specialize (X _ Q). cbn in X. lia. }
    assert (B : exists y, In y (l1 ++ l2) /\ dv y s = true).
    { exists t. split; [|exact D]. rewrite Ets in Hj. apply in_app_iff. destruct (Nat.lt_ge_cases j (length l1)) as [L1|L1].
      - rewrite nth_error_app1 in Hj by exact L1. left. eapply nth_error_In; exact Hj.
      - rewrite nth_error_app2 in Hj by exact L1. destruct (j - length l1) as [|d] eqn:Q; [lia|]. right. eapply nth_error_In; exact Hj. }
    assert (A' : forall p k q, l1 = p ++ k :: q -> forall y, In y (p ++ q ++ s :: l2) -> dv y k = false).
    { intros p k q E1 y Hy. assert (Et : ts = p ++ k :: (q ++ s :: l2)) by (rewrite Ets, E1, <- app_assoc; reflexivity).
      assert (Lp : length p < i) by (rewrite <- Li, E1, app_length; cbn; lia).
      assert (Ek : nth_error ts (length p) = Some k) by (rewrite Et, nth_error_app2, Nat.sub_diag by lia; reflexivity).
      apply In_nth_error in Hy as (b & Eb). destruct (Nat.lt_ge_cases b (length p)) as [Lb|Lb].
      - assert (Ey : nth_error ts b = Some y) by (rewrite Et; rewrite nth_error_app1 in * by lia; exact Eb).
        apply (A (length p) b k y); try assumption. apply First; [exact Lp|apply nth_error_Some; congruence|lia].
      - assert (Ey : nth_error ts (S b) = Some y).
        { rewrite Et. rewrite nth_error_app2 in * by lia. replace (S b - length p) with (S (b - length p)) by lia. exact Eb. }
        apply (A (length p) (S b) k y); try assumption. apply First; [exact Lp|apply nth_error_Some; congruence|lia]. }
    pose proof (remove_single ts l1 s l2 Ets) as Rm. rewrite Li in Rm. rewrite Ets, (drop_one l1 s l2 B A'), <- Ets. match type of Rm with ?a = ?b => change a with (list_remove (single ts : list poly) i) in Rm end. rewrite Rm.
    destruct (IH (l1 ++ l2)) as (H1 & H2 & H3 & H4).
    + rewrite Ets in M. apply Forall_app in M as [M1 M2]. inversion M2; subst. apply Forall_app. split; assumption.
    + rewrite Ets in L. rewrite app_length in *. cbn in L. lia.
    + split; [exact H1|]. split; [exact H2|]. split; [exact H3|]. intros u Hu. rewrite Ets in Hu.
      assert (Q : In u (l1 ++ l2) \/ u = s) by (apply in_app_iff in Hu as [Hu|[Hu|Hu]]; [left; apply in_app_iff; auto|right; congruence|left; apply in_app_iff; auto]).
      destruct Q as [Q| ->]; [apply H4; exact Q|]. destruct B as (y & Hy & Dy). destruct (H4 y Hy) as (v & Hv & Dv). exists v. split; [exact Hv|]. apply (dv_trans v y s); assumption.
  - assert (Fr : free ts).
    { intros i j s t N Hs Ht. apply (H i j s t); try assumption. apply pairs_in; [apply nth_error_Some; congruence..|exact N]. }
    rewrite (free_all ts Fr). repeat (split; [assumption || reflexivity|]). intros t Ht. exists t. split; [exact Ht|]. apply divb_iff. intros; lia.
Qed.
Lemma reduce_none ts ps : Forall monomial ts -> free ts -> (forall i j, In (i, j) ps -> i < length ts /\ j < length ts /\ i <> j) -> reduce_find O (single ts) ps = Ok None.
Proof.
  intros M Fr. induction ps as [|[i j] ps IH]; intros V; [reflexivity|]. cbn [reduce_find]. rewrite !vget_single.
  destruct (V i j (or_introl eq_refl)) as (Hi & Hj & N).
  destruct (nth_error ts i) as [s|] eqn:Es; [|apply nth_error_None in Es; lia]. destruct (nth_error ts j) as [t|] eqn:Et; [|apply nth_error_None in Et; lia].
  cbn [bind any_term_divisible]. rewrite !lead_single. cbn [bind unwrap]. rewrite divides_dv by (rewrite Forall_forall in M; apply M; eapply nth_error_In; eassumption).
  rewrite (Fr i j s t N Es Et). cbn [bind]. apply IH. intros i' j' H. apply V. right. exact H.
Qed.
Lemma criterion_true n ts ps : Forall monomial ts -> Forall (valid (length ts)) ps -> criterion_loop Debug O n (single ts) ps = Ok true.
Proof.
  intros M. induction 1 as [|[i j] ps [Hi Hj] _ IH]; [reflexivity|]. cbn [fst snd] in *. cbn [criterion_loop]. rewrite !vget_single.
  destruct (nth_error ts i) as [s|] eqn:Es; [|apply nth_error_None in Es; lia]. destruct (nth_error ts j) as [t|] eqn:Et; [|apply nth_error_None in Et; lia].
  cbn [bind]. rewrite Forall_forall in M. rewrite spoly_monomials by (apply M; eapply nth_error_In; eassumption). cbn [bind]. rewrite divide_zero. cbn [bind poly_is_zero]. exact IH.
Qed.

(** a list of monomials is a Groebner basis, with any fuel; the algorithm removes the multiples, and of equal degrees keeps the last *)
Theorem C129_criterion : forall fuel ts, Forall monomial ts -> buchberger_criterion Debug O fuel (single ts) = Ok true.
Proof. intros fuel ts M. unfold buchberger_criterion. rewrite map_length. apply criterion_true; [exact M|apply pairs_valid]. Qed.
Theorem C129_extend : forall fuel ts, Forall monomial ts -> length ts <= fuel -> buchberger_extend Debug O fuel (single ts) = Ok (single ts).
Proof. intros fuel ts M L. unfold buchberger_extend. apply extend_none; [exact M|lia]. Qed.
Theorem C129_algorithm : forall fuel ts, Forall monomial ts -> length ts < fuel ->
  buchberger_minimize O fuel (single ts) = Ok (single (last_minimal [] ts)) /\
  buchberger_algorithm Debug O fuel (single ts) = Ok (single (last_minimal [] ts)).
Proof.
  intros fuel ts M L. destruct (minimize_all fuel ts M L) as (E & Fr & M' & _). split; [exact E|].
  unfold buchberger_algorithm. rewrite C129_extend by (try exact M; lia). cbn [bind]. unfold buchberger_minimize. rewrite E. cbn [bind].
  unfold buchberger_reduce. destruct fuel as [|fuel]; [lia|]. cbn [reduce_loop]. rewrite map_length, reduce_none; [reflexivity|exact M'|exact Fr|].
  intros i j I. pose proof (pairs_neq _ _ _ I). pose proof (pairs_valid (length (last_minimal [] ts))) as V. rewrite Forall_forall in V. destruct (V _ I). auto.
Qed.
(** what is left: part of the list, no degree divides another one, and every generator is divisible by one that is left *)
Theorem C129_minimal : forall ts, Forall monomial ts ->
  incl (last_minimal [] ts) ts /\
  (forall i j s t, nth_error (last_minimal [] ts) i = Some s -> nth_error (last_minimal [] ts) j = Some t -> (forall k, nth k (tdeg s) 0 <= nth k (tdeg t) 0) -> i = j) /\
  (forall t, In t ts -> exists u, In u (last_minimal [] ts) /\ forall k, nth k (tdeg u) 0 <= nth k (tdeg t) 0).
Proof.
  intros ts M. destruct (minimize_all (S (length ts)) ts M (Nat.lt_succ_diag_r _)) as (_ & Fr & _ & D). split; [|split].
  - assert (G : forall q p, incl (last_minimal p q) q); [|apply G]. clear. induction q as [|k q IH]; intros p; [apply incl_refl|]. cbn [last_minimal].
    apply incl_app; [destruct (_ && _); [intros x [<-|[]]; left; reflexivity|intros x []]|]. apply incl_tl, IH.
  - intros i j s t Hs Ht H. destruct (Nat.eq_dec i j) as [E|N]; [exact E|]. exfalso. pose proof (Fr j i t s (not_eq_sym N) Ht Hs) as X.
    unfold dv in X. rewrite (proj2 (divb_iff _ _) H) in X. discriminate.
  - intros t Ht. destruct (D t Ht) as (u & Hu & Du). exists u. split; [exact Hu|]. apply divb_iff. exact Du.
Qed.
End Monomial.

(** ** the number types *)
Lemma one_rat : one_cancels (F := rat_impl Debug).
Proof. split; [reflexivity|]. eexists. eexists. repeat (split; [reflexivity|]). reflexivity. Qed.
Lemma one_float t e : is_fmt t -> one_cancels (F := float_impl t e).
Proof. intros [-> | ->]; (split; [reflexivity|]; eexists; eexists; repeat (split; [reflexivity|]); reflexivity). Qed.
Section Exact.
Variable K : MathField.
Add Field Kf56 : (kth K).
Lemma one_exact : one_cancels (F := ideal_impl K).
Proof.
  assert (N : (k1 : K) <> k0) by (apply (F_1_neq_0 (kth K))).
  split; [apply Bool.not_true_is_false; cbn; rewrite keqb_iff; exact N|]. exists (kopp k1), (kadd k1 (kopp k1)). split; [reflexivity|].
  split; [apply Bool.not_true_is_false; cbn; rewrite keqb_iff; intros E; apply N; transitivity (kopp (kopp (k1 : K))); [ring|rewrite E; ring]|].
  split; [reflexivity|]. cbn. apply keqb_iff. ring.
Qed.
Lemma inv_exact_field (c : ideal_impl K) : c <> k0 -> inv_exact c.
Proof.
  intros N. assert (N1 : (k1 : K) <> k0) by (apply (F_1_neq_0 (kth K))).
  split; [apply Bool.not_true_is_false; cbn; rewrite keqb_iff; exact N|]. exists (kdiv k1 c). cbn. 
  destruct (keqb K c k0) eqn:Q; [apply keqb_iff in Q; contradiction|]. split; [reflexivity|]. split.
  - apply Bool.not_true_is_false. rewrite keqb_iff. intros E. apply N1. transitivity (kmul c (kdiv k1 c)); [field; exact N|rewrite E; ring].
  - f_equal. field. exact N.
Qed.
End Exact.
Lemma inv_exact_rat (c : rat) : (0 < denom c)%Z -> numer c <> 0%Z -> (Z.abs (numer c) * denom c <= i64_max)%Z -> inv_exact (F := rat_impl Debug) c.
Proof.
  intros D N B.
  assert (Bn : (Z.abs (numer c) <= i64_max)%Z) by nia. assert (Bd : (denom c <= i64_max)%Z) by nia.
  split.
  - cbn. unfold rat_eqb. destruct (Z.eqb_spec (numer c) (numer rat_zero)) as [E|E]; [contradiction|reflexivity].
  - assert (X : exists a, rat_div Debug rat_one c = Ok a /\ rb (denom c) (Z.abs (numer c)) a).
    { unfold rat_div, int_mul. cbn [numer denom rat_one]. rewrite !Z.mul_1_l.
      rewrite (chk64_abs (denom c) (denom c)), (chk64_abs (numer c) (Z.abs (numer c))) by lia. cbn [bind]. apply rb_new; lia. }
    destruct X as (a & Ea & Ba). pose proof (rat_div_safe rat_one c ltac:(cbn; lia) D N) as S. rewrite Ea in S. destruct S as [Ra Va].
    exists a. split; [exact Ea|].
    assert (Vc : ~ (rat_val c == 0)%Q) by (unfold rat_val, Qeq; cbn; lia).
    assert (Va' : (rat_val a == / rat_val c)%Q) by (rewrite Va; change (rat_val rat_one) with 1%Q; unfold Qdiv; apply Qmult_1_l).
    split.
    + cbn. unfold rat_eqb. destruct (Z.eqb_spec (numer a) (numer rat_zero)) as [E|E]; [|reflexivity]. exfalso.
      assert (Z0 : (rat_val a == 0)%Q) by (unfold rat_val, Qeq; cbn in *; lia). rewrite Va' in Z0.
      assert (Q1 : (rat_val c * / rat_val c == 0)%Q) by (rewrite Z0; ring). rewrite Qmult_inv_r in Q1 by exact Vc. discriminate.
    + assert (Bc : rb (Z.abs (numer c)) (denom c) c) by (unfold rb; lia).
      destruct (rb_mul _ _ _ _ c a Bc Ba ltac:(nia) ltac:(nia)) as (z & Ez & _). cbn. rewrite Ez. f_equal.
      pose proof (rat_mul_safe c a D (proj1 Ra)) as S. rewrite Ez in S. destruct S as [Rz Vz].
      apply reduced_unique; [exact Rz|split; cbn; [lia|reflexivity]|]. rewrite Vz, Va'. change (rat_val rat_one) with 1%Q. apply Qmult_inv_r. exact Vc.
Qed.
Theorem C129_rational : forall O fuel (ts : list (term (rat_impl Debug))),
  Forall (fun t : term (rat_impl Debug) => mwf (tdeg t) /\ 0 < denom (coef t) /\ numer (coef t) <> 0 /\ Z.abs (numer (coef t)) * denom (coef t) <= i64_max)%Z ts -> length ts < fuel ->
  buchberger_algorithm Debug O fuel (map (fun t => [t]) ts) = Ok (map (fun t => [t]) (last_minimal [] ts)).
Proof.
  intros O fuel ts H L. apply (C129_algorithm O one_rat); [|exact L]. revert H. apply Forall_impl. intros t (W & D & N & B). split; [exact W|]. apply inv_exact_rat; assumption.
Qed.
Theorem C129_exact : forall K O fuel (ts : list (term (ideal_impl K))), Forall (fun t : term (ideal_impl K) => mwf (tdeg t) /\ (coef t : K) <> k0) ts -> length ts < fuel ->
  buchberger_algorithm Debug O fuel (map (fun t => [t]) ts) = Ok (map (fun t => [t]) (last_minimal [] ts)).
Proof.
  intros K O fuel ts H L. apply (C129_algorithm O (one_exact K)); [|exact L]. revert H. apply Forall_impl. intros t (W & N). split; [exact W|]. apply inv_exact_field; exact N.
Qed.
(** over f32 and f64, if c * (1/c) is computed as 1 for each coefficient *)
Theorem C129_float : forall t e O fuel (ts : list (term (float_impl t e))), is_fmt t ->
  Forall (fun s : term (float_impl t e) => mwf (tdeg s) /\ SFeqb (coef s) fzero = false /\ SFeqb (SFdiv (prec t) (emax t) (fone t) (coef s)) fzero = false /\
    SFmul (prec t) (emax t) (coef s) (SFdiv (prec t) (emax t) (fone t) (coef s)) = fone t) ts -> length ts < fuel ->
  buchberger_algorithm Debug O fuel (map (fun t => [t]) ts) = Ok (map (fun t => [t]) (last_minimal [] ts)).
Proof.
  intros t e O fuel ts T H L. apply (C129_algorithm O (one_float t e T)); [|exact L]. revert H. apply Forall_impl. intros s (W & N & Z & E). split; [exact W|]. split; [exact N|].
  exists (SFdiv (prec t) (emax t) (fone t) (coef s)). split; [reflexivity|]. split; [exact Z|]. cbn. rewrite E. reflexivity.
Qed.

(** ** Concrete cases *)
Definition ex_mt (n d : Z) (a : mdeg) : term (rat_impl Debug) := @mkterm (rat_impl Debug) (mkrat n d) a.
(** 2 x^2 y, 3 y^3, x y, -5/7 y^3, x^3: left are x y, -5/7 y^3, x^3 *)
Definition ex_mono : list (term (rat_impl Debug)) := [ex_mt 2 1 [2; 1]; ex_mt 3 1 [0; 3]; ex_mt 1 1 [1; 1]; ex_mt (-5) 7 [0; 3]; ex_mt 1 1 [3]].
Lemma ex_mono_ok (ts : list (term (rat_impl Debug))) :
  forallb (fun t : term (rat_impl Debug) => let c : rat := coef t in (canonicalb (tdeg t) && forallb (fun e => e <=? 255) (tdeg t)) && ((0 <? denom c) && negb (numer c =? 0) && (Z.abs (numer c) * denom c <=? i64_max))%Z) ts = true ->
  Forall (fun t : term (rat_impl Debug) => mwf (tdeg t) /\ 0 < denom (coef t) /\ numer (coef t) <> 0 /\ Z.abs (numer (coef t)) * denom (coef t) <= i64_max)%Z ts.
Proof.
  intros H. apply Forall_forall. intros t It. rewrite forallb_forall in H. specialize (H t It). cbv zeta in H. apply andb_prop in H as [H1 H2].
  apply andb_prop in H2 as [H2 H3]. apply andb_prop in H2 as [H2 H4]. apply andb_prop in H1 as [H1 H5]. apply negb_true_iff, Z.eqb_neq in H4. apply Z.ltb_lt in H2. apply Z.leb_le in H3.
  split; [split; [apply canonicalb_spec; exact H1|apply forallb_u8; exact H5]|auto].
Qed.
Example C129_ex : buchberger_algorithm Debug (grevlex_cmp Debug) 6 (map (fun t => [t]) ex_mono) = Ok [[ex_mt 1 1 [1; 1]]; [ex_mt (-5) 7 [0; 3]]; [ex_mt 1 1 [3]]].
Proof. rewrite (C129_rational (grevlex_cmp Debug) 6 ex_mono); [reflexivity|apply ex_mono_ok; reflexivity|cbn; lia]. Qed.
(** degrees up to 255 do no harm *)
Example C129_ex_large : buchberger_algorithm Debug lex_cmp 3 (map (fun t => [t]) [ex_mt 1 1 [255]; ex_mt 1 1 [0; 255]]) = Ok (map (fun t => [t]) [ex_mt 1 1 [255]; ex_mt 1 1 [0; 255]]).
Proof. rewrite (C129_rational lex_cmp 3 [ex_mt 1 1 [255]; ex_mt 1 1 [0; 255]]); [reflexivity|apply ex_mono_ok; reflexivity|cbn; lia]. Qed.
(** over f64 it is false without the condition: 49 * (1/49) is computed as a number below 1, and the S-polynomial of 49 x and y is not 0 *)
Definition ex_me : fenv := mkenv (fun x _ => x) false.
Definition ex_49 : float := binary_normalize 53 1024 49 0 false.
Theorem C129_float_refuted : exists s : list (term (float_impl binary64 ex_me)),
  try_reduce Debug lex_cmp [@mkterm (float_impl binary64 ex_me) ex_49 [1]] [@mkterm (float_impl binary64 ex_me) (fone binary64) [0; 1]] = Ok (Some s) /\ s <> [].
Proof.
  exists [@mkterm (float_impl binary64 ex_me) (SFadd 53 1024 (SFmul 53 1024 ex_49 (SFdiv 53 1024 (fone binary64) ex_49)) (SFopp (fone binary64))) [1; 1]].
  split; [reflexivity|discriminate].
Qed.
Print Assumptions C129_criterion.
Print Assumptions C129_extend.
Print Assumptions C129_algorithm.
Print Assumptions C129_minimal.
Print Assumptions C129_rational.
Print Assumptions C129_exact.
Print Assumptions C129_float.
Print Assumptions C129_float_refuted.
