(** * Sorting, leading terms, division with remainder and S-polynomials (Debug profile). *)
From Verif Require Import Base BaseLemmas FieldIface MDegModel OrdModel PolyModel CompModel MonoSpec MDegProofs OrdProofs
  PolySpec PolyProofs GroebnerSpec.
From Coq Require Import Ring Field Setoid Morphisms Permutation Sorted.

Section DivProofs.
Context {F : FieldImpl} {K : MathField} (FS : FieldSpec F K) {O : ord_impl} (OS : OrderSpec O).
Add Field Kf5 : (kth K).
Add Ring Pr5 : (@poly_ring K) (setoid (@peq_equiv K) (@poly_ring_ext K)).
Notation term := (term F).
Notation poly := (poly F).
Notation ip := (ip FS).
Notation it := (it FS).
Notation pwf := (pwf FS).
Notation twf := (twf FS).
Notation twf0 := (twf0 FS).
Notation olt := (olt OS).
Notation tm t := (canon (tdeg t)).
Notation LM := (is_lm olt).
Notation mle := (mle olt).
Let laws := olaws _ OS.

Lemma tcmp_ok s t : twf0 s -> twf0 t ->
  safe (term_cmp O s t) (fun c => CompareSpec (tm s = tm t) (olt (tm s) (tm t)) (olt (tm t) (tm s)) c).
Proof. intros Hs Ht. apply (ocmp_ok _ OS); [apply Hs|apply Ht]. Qed.

(** ** sort_by *)
Notation asc := (StronglySorted (fun s t : term => mle (tm s) (tm t))).
Definition same_tm (d : mono) (s : term) : bool := if mono_dec (tm s) d then true else false.

Lemma insert_ok x l : twf0 x -> Forall twf0 l -> asc l ->
  safe (insert_by (term_cmp O) x l) (fun r => Permutation (x :: l) r /\ asc r /\
     forall d, filter (same_tm d) r = filter (same_tm d) (x :: l)).
Proof.
  intros Hx Hl S. induction l as [|y l IH]; simpl.
  - split; [reflexivity|]. split; [constructor; constructor|reflexivity].
  - inversion Hl as [|? ? Hy Hl']; subst. inversion S as [|? ? S' M]; subst.
    eapply safe_bind; [apply tcmp_ok; assumption|]. intros c Hc.
    assert (Low : mle (tm x) (tm y) -> Forall (fun t => mle (tm x) (tm t)) (y :: l)).
    { intros L. constructor; [exact L|]. eapply Forall_impl; [|exact M]. intros t X. cbv beta in *.
      eapply (mle_trans olt laws); eassumption. }
    destruct Hc as [E|E|E]; simpl.
    + split; [reflexivity|]. split; [|reflexivity]. constructor; [exact S|]. apply Low. left. exact E.
    + split; [reflexivity|]. split; [|reflexivity]. constructor; [exact S|]. apply Low. right. exact E.
    + eapply safe_bind; [apply IH; assumption|]. intros r (P & Sr & Fr). simpl. split; [|split].
      * rewrite perm_swap, P. reflexivity.
      * constructor; [exact Sr|]. rewrite <- P. constructor; [right; exact E|exact M].
      * intros d. rewrite Fr. simpl. unfold same_tm.
        destruct (mono_dec (tm x) d) as [E1|]; destruct (mono_dec (tm y) d) as [E'|]; try reflexivity.
        exfalso. rewrite E', E1 in E. apply (lt_irrefl olt laws _ E).
Qed.
Lemma sort_ok f : Forall twf0 f ->
  safe (sort_by (term_cmp O) f) (fun r => Permutation f r /\ asc r /\
     forall d, filter (same_tm d) r = filter (same_tm d) f).
Proof.
  induction 1 as [|x l Hx Hl IH]; simpl.
  - split; [constructor|]. split; [constructor|reflexivity].
  - eapply safe_bind; [exact IH|]. intros r (P & S & Fr).
    eapply safe_mono; [apply insert_ok; auto; rewrite <- P; exact Hl|]. intros r' (P' & S' & Fr').
    split; [rewrite P; exact P'|]. split; [exact S'|]. intros d. rewrite Fr'. simpl. rewrite Fr. reflexivity.
Qed.

(** ** max_by: the last of the greatest terms *)
Lemma max_fold_ok l : forall x, twf0 x -> Forall twf0 l ->
  safe (foldM (fun best y => c <- term_cmp O best y ;; Ok (match c with Gt => best | _ => y end)) l x)
    (fun t => exists pre post, x :: l = pre ++ t :: post /\
        Forall (fun s => mle (tm s) (tm t)) pre /\ Forall (fun s => olt (tm s) (tm t)) post).
Proof.
  induction l as [|y l IH]; intros x Hx Hl; simpl.
  - exists [], []. auto.
  - inversion Hl as [|? ? Hy Hl']; subst. rewrite bind_assoc. eapply safe_bind; [apply tcmp_ok; assumption|].
    intros c Hc. simpl.
    assert (Next : mle (tm x) (tm y) ->
       safe (foldM (fun best y => c <- term_cmp O best y ;; Ok (match c with Gt => best | _ => y end)) l y)
        (fun t => exists pre post, x :: y :: l = pre ++ t :: post /\
            Forall (fun s => mle (tm s) (tm t)) pre /\ Forall (fun s => olt (tm s) (tm t)) post)).
    { intros L. eapply safe_mono; [apply IH; assumption|]. intros t (pre & post & E & A & B).
      exists (x :: pre), post. rewrite E. split; [reflexivity|]. split; [|exact B]. constructor; [|exact A].
      destruct pre as [|z pre]; injection E as -> _.
      - exact L.
      - inversion A; subst. eapply (mle_trans olt laws); eassumption. }
    destruct Hc as [E|E|E].
    + apply Next. left. exact E.
    + apply Next. right. exact E.
    + eapply safe_mono; [apply IH; assumption|]. intros t (pre & post & E' & A & B).
      destruct pre as [|z pre]; injection E' as <- ->.
      * exists [], (y :: post). split; [reflexivity|]. split; [constructor|]. constructor; assumption.
      * inversion A as [|? ? A1 A2]; subst. exists (x :: y :: pre), post. split; [reflexivity|]. split; [|exact B].
        constructor; [exact A1|]. constructor; [|exact A2]. right. eapply (lt_mle_trans olt laws); eassumption.
Qed.
Lemma max_by_ok f : Forall twf0 f ->
  safe (leading_term O f) (fun o => match o with
    | None => f = []
    | Some t => exists pre post, f = pre ++ t :: post /\
        Forall (fun s => mle (tm s) (tm t)) pre /\ Forall (fun s => olt (tm s) (tm t)) post
    end).
Proof.
  intros H. unfold leading_term, max_by. destruct f as [|x l]; [reflexivity|]. inversion H; subst.
  eapply safe_bind; [apply max_fold_ok; assumption|]. intros t Ht. exact Ht.
Qed.

Lemma pwf_lm f t : pwf f -> In t f -> (forall s, In s f -> mle (tm s) (tm t)) -> LM (ip f) (tm t).
Proof.
  intros Wf I H. split.
  - apply (pwf_support FS f _ Wf). exists t. auto.
  - intros m N. apply (pwf_support FS f m Wf) in N as (s & Is & <-). auto.
Qed.
Lemma leading_term_ok f : pwf f ->
  safe (leading_term O f) (fun o => match o with
    | None => f = []
    | Some t => In t f /\ twf t /\ LM (ip f) (tm t) /\ coeff (ip f) (tm t) = den FS (coef t)
    end).
Proof.
  intros W. eapply safe_mono; [apply max_by_ok; apply Forall_twf0; apply W|].
  intros [t|]; [|auto]. intros (pre & post & E & A & B).
  assert (I : In t f) by (rewrite E; apply in_elt).
  split; [exact I|]. split; [apply (pwf_in FS f t W I)|]. split; [|apply pwf_coeff; assumption].
  apply pwf_lm; auto. intros s Is. rewrite E in Is. apply in_app_or in Is as [Is|[<-|Is]].
  - rewrite Forall_forall in A. auto.
  - apply mle_refl.
  - rewrite Forall_forall in B. right. auto.
Qed.
(** two polynomials: same model value *)
Lemma leading_term_cases f : pwf f ->
  (f = [] /\ leading_term O f = Ok None) \/ leading_term O f = Panic Overflow \/
  exists t, leading_term O f = Ok (Some t) /\ In t f /\ twf t /\ LM (ip f) (tm t) /\ coeff (ip f) (tm t) = den FS (coef t).
Proof.
  intros W. pose proof (leading_term_ok f W) as H. apply safe_inv in H as [E|(o & E & H)]; [auto|].
  destruct o as [t|]; [right; right; eauto|]. left. auto.
Qed.

(** ** permutations *)
Lemma pwf_perm p q : Permutation p q -> pwf p -> pwf q.
Proof.
  intros P [A N]. split.
  - rewrite <- P. exact A.
  - apply (Permutation_NoDup (l := map tdeg p)); [apply Permutation_map; exact P|exact N].
Qed.
Lemma ip_perm p q : Permutation p q -> peq (ip p) (ip q).
Proof.
  induction 1 as [|x l l' P IH|x y l|l l' l'' P1 IH1 P2 IH2].
  - reflexivity.
  - rewrite !ip_cons, IH. reflexivity.
  - rewrite !ip_cons. ring.
  - rewrite IH1. exact IH2.
Qed.

(** ** the inner divisor loop *)
Lemma try_divisors_ok lt_f : twf lt_f -> forall divs quots, Forall pwf divs -> Forall pwf quots -> length quots = length divs ->
  safe (try_divisors O lt_f divs quots) (fun o => match o with
    | None => forall g l, In g divs -> LM (ip g) l -> ~ mdiv l (tm lt_f)
    | Some (quots', a, g) => exists i q q' l,
        nth_error divs i = Some g /\ nth_error quots i = Some q /\ quots' = list_set quots i q' /\
        pwf q' /\ peq (ip q') (padd (ip q) (it a)) /\ twf a /\ LM (ip g) l /\
        tm lt_f = mmul (tm a) l /\ den FS (coef a) = kdiv (den FS (coef lt_f)) (coeff (ip g) l) /\
        forall j g' l', j < i -> nth_error divs j = Some g' -> LM (ip g') l' -> ~ mdiv l' (tm lt_f)
    end).
Proof.
  intros Wt. induction divs as [|g divs IH]; intros [|q quots] Hd Hq Len; try discriminate.
  - simpl. intros g l [].
  - inversion Hd as [|? ? Wg Hd']; subst. inversion Hq as [|? ? Wq Hq']; subst. simpl in Len.
    simpl try_divisors.
    assert (Skip : (forall l, LM (ip g) l -> ~ mdiv l (tm lt_f)) ->
      safe (r <- try_divisors O lt_f divs quots ;;
            Ok (match r with None => None | Some (qs, a, g') => Some (q :: qs, a, g') end))
       (fun o => match o with
        | None => forall g0 l, In g0 (g :: divs) -> LM (ip g0) l -> ~ mdiv l (tm lt_f)
        | Some (quots', a, g0) => exists i q0 q' l,
            nth_error (g :: divs) i = Some g0 /\ nth_error (q :: quots) i = Some q0 /\ quots' = list_set (q :: quots) i q' /\
            pwf q' /\ peq (ip q') (padd (ip q0) (it a)) /\ twf a /\ LM (ip g0) l /\
            tm lt_f = mmul (tm a) l /\ den FS (coef a) = kdiv (den FS (coef lt_f)) (coeff (ip g0) l) /\
            forall j g' l', j < i -> nth_error (g :: divs) j = Some g' -> LM (ip g') l' -> ~ mdiv l' (tm lt_f)
        end)).
    { intros N. eapply safe_bind; [apply IH; auto|]. intros [[[qs a] g0]|] H; simpl.
      - destruct H as (i & q0 & q' & l & H1 & H2 & -> & H3 & H4 & H5 & H6 & H7 & H8 & H9).
        exists (S i), q0, q', l. repeat (split; [solve [auto]|]).
        intros [|j] g' l' Hj E; simpl in E; [injection E as <-; apply N|]. apply H9 with (j := j); [lia|exact E].
      - intros g0 l [<-|I]; [apply N|apply H; exact I]. }
    eapply safe_bind_eq; [apply leading_term_ok; exact Wg|]. intros [lg|] Elg Hlg.
    + destruct Hlg as (Ig & Wlg & Lg & Cg).
      eapply safe_bind; [apply (term_try_div_ok FS lt_f lg); assumption|]. intros [a|] Ha.
      * destruct Ha as (Wa & Em & Ed).
        eapply safe_bind; [apply (poly_add_term_ok FS q a Wq); apply twf_twf0; exact Wa|]. intros q' [Wq' Eq']. simpl.
        exists 0, q, q', (tm lg). split; [reflexivity|]. split; [reflexivity|]. split; [reflexivity|].
        split; [exact Wq'|]. split; [exact Eq'|]. split; [exact Wa|]. split; [exact Lg|].
        split; [rewrite mmul_comm; exact Em|]. split; [rewrite Cg; exact Ed|]. intros j ? ? Hj. lia.
      * apply Skip. intros l Ll. rewrite (is_lm_unique olt laws _ _ _ Ll Lg). exact Ha.
    + subst g. apply Skip. intros l [Ll _]. exfalso. apply Ll. reflexivity.
Qed.

(** ** division with remainder *)

(** what a state (quotients, remainder, rest) of the division says about the input *)
Record div_state (f : spoly K) (divs : list (spoly K)) (qs : list (spoly K)) (r rest : spoly K) : Prop := {
  ds_len : length qs = length divs;
  ds_eq : peq f (padd (lincomb qs divs) (padd r rest));
  ds_red : reduced olt divs r;
  ds_first : forall i j q gi gj li lj a, nth_error qs i = Some q -> nth_error divs i = Some gi -> nth_error divs j = Some gj ->
     LM gi li -> LM gj lj -> coeff q a <> k0 -> j < i -> ~ mdiv lj (mmul a li);
  ds_zero : forall i q g, nth_error qs i = Some q -> nth_error divs i = Some g -> peq g pzero -> peq q pzero;
  ds_qbound : forall B, (forall m, coeff f m <> k0 -> mle m B) ->
     forall i q g l a, nth_error qs i = Some q -> nth_error divs i = Some g -> LM g l -> coeff q a <> k0 -> mle (mmul a l) B;
  ds_rbound : forall B, (forall m, coeff f m <> k0 -> mle m B) -> forall m, coeff r m <> k0 -> mle m B;
  ds_restbound : forall B, (forall m, coeff f m <> k0 -> mle m B) -> forall m, coeff rest m <> k0 -> mle m B;
  ds_vars : forall n, svars n f -> (forall g, In g divs -> svars n g) ->
     (forall q, In q qs -> svars n q) /\ svars n r /\ svars n rest
}.

Lemma lincomb_set (qs gs : list (spoly K)) i q q' g : nth_error qs i = Some q -> nth_error gs i = Some g ->
  peq (lincomb (list_set qs i q') gs) (padd (lincomb qs gs) (pmul (psub q' q) g)).
Proof.
  revert gs i. induction qs as [|x qs IH]; intros [|y gs] [|i] Hq Hg; simpl in *; try discriminate.
  - injection Hq as ->. injection Hg as ->. ring.
  - rewrite (IH gs i Hq Hg). ring.
Qed.

Lemma nth_error_set_inv {A} (l : list A) i x j y : nth_error (list_set l i x) j = Some y ->
  (j = i /\ y = x) \/ (j <> i /\ nth_error l j = Some y).
Proof.
  rewrite nth_error_list_set. destruct (i =? j) eqn:E.
  - apply Nat.eqb_eq in E. destruct (i <? length l); [|discriminate]. intros X. injection X as <-. auto.
  - apply Nat.eqb_neq in E. right. split; [congruence|assumption].
Qed.

(** the quotient step *)
Lemma ds_quot f divs qs r rest i q g q' c a l m :
  div_state f divs qs r rest -> nth_error qs i = Some q -> nth_error divs i = Some g ->
  LM g l -> LM rest m -> m = mmul a l -> peq q' (padd q (pterm c a)) -> c = kdiv (coeff rest m) (coeff g l) ->
  (forall j gj lj, j < i -> nth_error divs j = Some gj -> LM gj lj -> ~ mdiv lj m) ->
  div_state f divs (list_set qs i q') r (psub rest (tmul c a g)).
Proof.
  intros D Hq Hg Hl Hm Em Eq' Ec Hfirst.
  assert (Sup : forall x, coeff q' x <> k0 -> coeff q x <> k0 \/ x = a).
  { intros x X. rewrite Eq', coeff_add, coeff_pterm in X. destruct (mono_dec a x) as [->|]; auto.
    left. intros Z. apply X. rewrite Z. ring. }
  assert (Low : forall x, coeff (psub rest (tmul c a g)) x <> k0 -> olt x m).
  { subst c. apply (reduce_lm olt laws); auto. }
  constructor.
  - rewrite list_set_length. apply D.
  - rewrite (ds_eq _ _ _ _ _ D) at 1. rewrite (lincomb_set qs divs i q q' g Hq Hg), Eq'.
    rewrite tmul_pmul. ring.
  - apply D.
  - intros k j qk gk gj lk lj x Ek Egk Egj Lk Lj X Hj. apply nth_error_set_inv in Ek as [[-> ->]|[Nk Ek]].
    + assert (gk = g) by congruence. subst gk. assert (lk = l) by (eapply (is_lm_unique olt laws); eassumption). subst lk.
      destruct (Sup x X) as [Y| ->].
      * eapply (ds_first _ _ _ _ _ D i j); eassumption.
      * rewrite <- Em. eapply Hfirst; eassumption.
    + eapply (ds_first _ _ _ _ _ D k j); eassumption.
  - intros k qk gk Ek Egk Z. apply nth_error_set_inv in Ek as [[-> ->]|[Nk Ek]].
    + assert (gk = g) by congruence. subst gk. exfalso. apply (lm_nonzero olt g l Hl Z).
    + eapply (ds_zero _ _ _ _ _ D k); eassumption.
  - intros B HB k qk gk lk x Ek Egk Lk X. apply nth_error_set_inv in Ek as [[-> ->]|[Nk Ek]].
    + assert (gk = g) by congruence. subst gk. assert (lk = l) by (eapply (is_lm_unique olt laws); eassumption). subst lk.
      destruct (Sup x X) as [Y| ->].
      * eapply (ds_qbound _ _ _ _ _ D B HB i); eassumption.
      * rewrite <- Em. apply (ds_restbound _ _ _ _ _ D B HB). apply Hm.
    + eapply (ds_qbound _ _ _ _ _ D B HB k); eassumption.
  - apply D.
  - intros B HB x X. right. eapply (lt_mle_trans olt laws); [apply Low; exact X|].
    apply (ds_restbound _ _ _ _ _ D B HB). apply Hm.
  - intros n Vf Vg. destruct (ds_vars _ _ _ _ _ D n Vf Vg) as (Vq & Vr & Vrest).
    assert (Vm : mvars n m) by (apply Vrest; apply Hm).
    assert (Va : mvars n a) by (rewrite Em in Vm; apply mvars_mul in Vm; apply Vm).
    split; [|split; [exact Vr|]].
    + intros x I. apply In_nth_error in I as (k & Ek). apply nth_error_set_inv in Ek as [[-> ->]|[Nk Ek]].
      * intros y Y. destruct (Sup y Y) as [Z| ->]; auto. apply (Vq q); auto. eapply nth_error_In; exact Hq.
      * apply Vq. eapply nth_error_In; exact Ek.
    + apply svars_sub; auto. apply svars_tmul; auto. apply Vg. eapply nth_error_In; exact Hg.
Qed.

(** the remainder step *)
Lemma ds_rem f divs qs r rest c m r' rest' :
  div_state f divs qs r rest -> LM rest m -> c = coeff rest m ->
  peq r' (padd r (pterm c m)) -> peq rest' (psub rest (pterm c m)) ->
  (forall g l, In g divs -> LM g l -> ~ mdiv l m) ->
  div_state f divs qs r' rest' /\ (forall x, coeff rest' x <> k0 -> olt x m).
Proof.
  intros D Hm Ec Er Erest N.
  assert (Low : forall x, coeff rest' x <> k0 -> olt x m /\ coeff rest x <> k0).
  { intros x X. rewrite Erest, coeff_sub, coeff_pterm in X. destruct (mono_dec m x) as [->|Nx].
    - exfalso. apply X. rewrite Ec. ring.
    - assert (Y : coeff rest x <> k0) by (intros Z; apply X; rewrite Z; ring). split; [|exact Y].
      destruct (proj2 Hm x Y) as [->|]; [congruence|assumption]. }
  assert (Sup : forall x, coeff r' x <> k0 -> coeff r x <> k0 \/ x = m).
  { intros x X. rewrite Er, coeff_add, coeff_pterm in X. destruct (mono_dec m x) as [->|]; auto.
    left. intros Z. apply X. rewrite Z. ring. }
  split; [|intros x X; apply Low; exact X].
  constructor.
  - apply D.
  - rewrite (ds_eq _ _ _ _ _ D) at 1. rewrite Er, Erest. ring.
  - intros x X g l I Lg. destruct (Sup x X) as [Y| ->]; [eapply (ds_red _ _ _ _ _ D); eassumption|eapply N; eassumption].
  - apply D.
  - apply D.
  - apply D.
  - intros B HB x X. destruct (Sup x X) as [Y| ->]; [eapply (ds_rbound _ _ _ _ _ D); eassumption|].
    apply (ds_restbound _ _ _ _ _ D B HB). apply Hm.
  - intros B HB x X. eapply (ds_restbound _ _ _ _ _ D B HB). apply Low. exact X.
  - intros n Vf Vg. destruct (ds_vars _ _ _ _ _ D n Vf Vg) as (Vq & Vr & Vrest).
    split; [exact Vq|]. split.
    + intros x X. destruct (Sup x X) as [Y| ->]; auto. apply Vrest. apply Hm.
    + intros x X. apply Vrest. apply Low. exact X.
Qed.

Lemma ds_init f divs qs : length qs = length divs -> (forall q, In q qs -> peq q pzero) ->
  div_state f divs qs pzero f.
Proof.
  intros Len Z.
  assert (Z' : forall i q a, nth_error qs i = Some q -> coeff q a = k0).
  { intros i q a E. rewrite (Z q) by (eapply nth_error_In; exact E). reflexivity. }
  assert (LZ : peq (lincomb qs divs) pzero).
  { revert divs Len. clear Z'. induction qs as [|q qs IH]; intros [|g divs] Len; try discriminate; [reflexivity|].
    simpl. rewrite (Z q (or_introl eq_refl)), IH; [ring|intros x I; apply Z; right; exact I|simpl in Len; lia]. }
  constructor.
  - exact Len.
  - rewrite LZ. ring.
  - intros m X. exfalso. apply X. reflexivity.
  - intros i j q gi gj li lj a E _ _ _ _ X. exfalso. apply X. eapply Z'. exact E.
  - intros i q g E _ _. apply Z. eapply nth_error_In; exact E.
  - intros B _ i q g l a E _ _ X. exfalso. apply X. eapply Z'. exact E.
  - intros B _ m X. exfalso. apply X. reflexivity.
  - intros B HB m X. apply HB. exact X.
  - intros n Vf _. split; [|split; [apply svars_zero|exact Vf]].
    intros q I. rewrite (Z q I). apply svars_zero.
Qed.

Definition div_ok (f : spoly K) (divs : list (spoly K)) (qs : list (spoly K)) (r : spoly K) : Prop :=
  div_state f divs qs r pzero.

Lemma nth_error_map_inv {A B} (h : A -> B) l i y : nth_error (map h l) i = Some y -> exists x, nth_error l i = Some x /\ y = h x.
Proof. rewrite nth_error_map. destruct (nth_error l i) as [x|]; simpl; intros E; [|discriminate]. injection E as <-. eauto. Qed.
Lemma map_list_set {A B} (h : A -> B) l i x : map h (list_set l i x) = list_set (map h l) i (h x).
Proof. revert i. induction l as [|y l IH]; intros [|i]; simpl; auto. f_equal. apply IH. Qed.
Lemma Forall_list_set {A} (P : A -> Prop) l i x : Forall P l -> P x -> Forall P (list_set l i x).
Proof. intros H Hx. revert i. induction H as [|y l Hy Hl IH]; intros [|i]; simpl; constructor; auto. Qed.

Lemma ip_term_sub c a f g af : pwf f -> Forall twf0 g -> safe af (fun r => Forall twf0 r /\ peq (ip r) (tmul c a (ip g))) ->
  safe (x <- af ;; poly_sub f x) (fun r => pwf r /\ peq (ip r) (psub (ip f) (tmul c a (ip g)))).
Proof.
  intros Wf Wg H. eapply safe_bind; [exact H|]. intros x [Wx Ex].
  eapply safe_mono; [apply (poly_sub_ok FS f x); assumption|]. intros r [Wr Er]. split; [exact Wr|]. rewrite Er, Ex. reflexivity.
Qed.

Lemma term_mul_poly_ok t p : twf t -> pwf p ->
  safe (term_mul_poly Debug t p) (fun r => pwf r /\ peq (ip r) (tmul (den FS (coef t)) (tm t) (ip p))).
Proof.
  intros Wt Wp. unfold term_mul_poly.
  eapply safe_mono; [apply (poly_mul_term_ok FS p t); [apply Forall_twf0; apply Wp|apply twf_twf0; exact Wt]|].
  intros r (_ & W & E). split; [apply W; exact Wp|]. rewrite E, tmul_pmul. unfold PolyProofs.it. ring.
Qed.

Lemma vec_pop_spec {A} (l : list A) : match vec_pop l with
  | (l', Some x) => l = l' ++ [x]
  | (l', None) => l = [] /\ l' = []
  end.
Proof.
  unfold vec_pop. destruct (rev l) as [|x r] eqn:E.
  - split; [|reflexivity]. rewrite <- (rev_involutive l), E. reflexivity.
  - rewrite <- (rev_involutive l), E. reflexivity.
Qed.

Lemma div_loop_aux f0 divs n : Forall pwf divs -> svars n f0 -> (forall g, In g divs -> svars n (ip g)) ->
  forall b, mvars n b -> forall f quots rem, pwf f -> Forall pwf quots -> pwf rem ->
  div_state f0 (map ip divs) (map ip quots) (ip rem) (ip f) ->
  (forall x, coeff (ip f) x <> k0 -> mle x b) ->
  evs (fun fuel => divide_loop Debug O fuel f divs quots rem)
    (fun o => pwf (fst o) /\ Forall pwf (snd o) /\ div_ok f0 (map ip divs) (map ip (snd o)) (ip (fst o))).
Proof.
  intros Wd Vf0 Vd b. induction (lt_wf olt laws n b) as [b _ IH]. intros Vb f quots rem Wf Wq Wr D HB.
  assert (Done : forall x, f = [] -> x = Ok (rem, quots) ->
     safe x (fun o => pwf (fst o) /\ Forall pwf (snd o) /\ div_ok f0 (map ip divs) (map ip (snd o)) (ip (fst o)))).
  { intros x -> ->. simpl. split; [exact Wr|]. split; [exact Wq|]. exact D. }
  (* recursive calls *)
  assert (Rec : forall m, LM (ip f) m -> forall f' quots' rem', pwf f' -> Forall pwf quots' -> pwf rem' ->
     div_state f0 (map ip divs) (map ip quots') (ip rem') (ip f') ->
     (forall x, coeff (ip f') x <> k0 -> olt x m) ->
     evs (fun fuel => divide_loop Debug O fuel f' divs quots' rem')
      (fun o => pwf (fst o) /\ Forall pwf (snd o) /\ div_ok f0 (map ip divs) (map ip (snd o)) (ip (fst o)))).
  { intros m Hm f' quots' rem' Wf' Wq' Wr' D' Low.
    destruct (zero_or_lm olt laws (ip f')) as [Z|(m' & Hm')].
    - apply (pwf_zero_iff FS f' Wf') in Z. subst f'.
      exists 0, (Ok (rem', quots')). split; [intros [|k] _; reflexivity|].
      simpl. split; [exact Wr'|]. split; [exact Wq'|exact D'].
    - destruct (ds_vars _ _ _ _ _ D' n Vf0) as (_ & _ & V').
      { intros g I. apply in_map_iff in I as (g0 & <- & I). apply Vd. exact I. }
      apply (IH m'); auto.
      + split; [apply V'; apply Hm'|]. split; [exact Vb|]. apply (lt_mle_trans olt laws) with m; [apply Low; apply Hm'|].
        apply HB. apply Hm.
      + apply V'. apply Hm'.
      + apply Hm'. }
  destruct (leading_term_cases f Wf) as [[Ef E]|[E|(t & E & It & Wt & Lt & Ct)]].
  - exists 0, (Ok (rem, quots)). split; [intros k _; destruct k; simpl; rewrite E; reflexivity|]. apply Done; auto.
  - exists 0, (Panic Overflow). split; [intros k _; destruct k; simpl; rewrite E; reflexivity|]. exact I.
  - apply (evs_S (fun fuel => 
        r <- try_divisors O t divs quots ;;
          match r with
          | Some (quots', a, g) =>
              ag <- term_mul_poly Debug a g ;;
              f' <- poly_sub f ag ;;
              divide_loop Debug O fuel f' divs quots' rem
          | None =>
              fs <- sort_by (term_cmp O) f ;;
              match vec_pop fs with
              | (f', Some l) => rem' <- poly_add_term rem l ;; divide_loop Debug O fuel f' divs quots rem'
              | (f', None) => divide_loop Debug O fuel f' divs quots rem
              end
          end)).
    { intros k. simpl. rewrite E. reflexivity. }
    assert (Lq : length quots = length divs).
    { pose proof (ds_len _ _ _ _ _ D) as X. rewrite !map_length in X. exact X. }
    eapply evs_bind_safe; [apply (try_divisors_ok t Wt divs quots); assumption|].
    intros [[[quots' a] g]|] H.
    + destruct H as (i & q & q' & l & Hg & Hq & -> & Wq' & Eq' & Wa & Lg & Em & Ed & Hfirst).
      assert (Wg : pwf g) by (rewrite Forall_forall in Wd; apply Wd; eapply nth_error_In; exact Hg).
      eapply evs_bind_safe; [apply (term_mul_poly_ok a g); assumption|]. intros ag [Wag Eag].
      eapply evs_bind_safe; [apply (poly_sub_ok FS f ag Wf); apply Forall_twf0; apply Wag|]. intros f' [Wf' Ef'].
      assert (Hst : div_state f0 (map ip divs) (map ip (list_set quots i q')) (ip rem) (psub (ip f) (tmul (den FS (coef a)) (tm a) (ip g)))).
      { rewrite map_list_set. eapply (ds_quot _ _ _ _ _ i (ip q) (ip g) (ip q') _ (tm a) l (tm t)); try eassumption.
        - rewrite nth_error_map, Hq. reflexivity.
        - rewrite nth_error_map, Hg. reflexivity.
        - rewrite Ct. exact Ed.
        - intros j gj lj Hj Ej Lj. apply nth_error_map_inv in Ej as (g' & Ej & ->). eapply Hfirst; eassumption. }
      assert (Ef'' : peq (ip f') (psub (ip f) (tmul (den FS (coef a)) (tm a) (ip g)))) by (rewrite Ef', Eag; reflexivity).
      apply (Rec (tm t) Lt); auto.
      * apply Forall_list_set; assumption.
      * destruct Hst as [S1 S2 S3 S4 S5 S6 S7 S8 S9]. constructor; auto.
        -- rewrite Ef''. exact S2.
        -- intros B HB' x X. rewrite Ef'' in X. eapply S8; eassumption.
        -- intros n' V1 V2. rewrite Ef''. apply S9; assumption.
      * intros x X. rewrite Ef'' in X. rewrite Ed, <- Ct in X. eapply (reduce_lm olt laws (ip f) (ip g) l (tm a) (tm t)); eassumption.
    + eapply evs_bind_safe; [apply (sort_ok f); apply Forall_twf0; apply Wf|]. intros fs (P & S & _).
      pose proof (vec_pop_spec fs) as V. destruct (vec_pop fs) as [f' [l|]].
      * subst fs.
        assert (Il : In l f) by (apply (Permutation_in _ (Permutation_sym P)); apply in_or_app; right; left; reflexivity).
        assert (Mx : forall s, In s f -> mle (tm s) (tm l)).
        { intros s Is. apply (Permutation_in _ P) in Is. apply in_app_or in Is as [Is|[<-|[]]]; [|apply mle_refl].
          clear - S Is. induction f' as [|y f' IH]; [contradiction|]. simpl in S. inversion S as [|? ? S' M]; subst.
          destruct Is as [->|Is]; [|auto]. rewrite Forall_forall in M. apply M. apply in_or_app. right. left. reflexivity. }
        assert (El : tm l = tm t).
        { apply (is_lm_unique olt laws (ip f)); [|exact Lt]. apply pwf_lm; auto. }
        assert (Wl : twf l) by (exact (pwf_in FS f l Wf Il)).
        assert (Wp : pwf (f' ++ [l])) by (apply (pwf_perm f); assumption).
        assert (Wf' : pwf f').
        { destruct Wp as [A N]. apply Forall_app in A as [A _]. split; [exact A|]. rewrite map_app in N.
          clear - N. induction (map tdeg f') as [|x xs IH]; [constructor|]. simpl in N. inversion N; subst. constructor; auto.
          intros I. apply H1. apply in_or_app. left. exact I. }
        eapply evs_bind_safe; [apply (poly_add_term_ok FS rem l Wr); apply twf_twf0; exact Wl|]. intros rem' [Wr' Er'].
        assert (Ef' : peq (ip f') (psub (ip f) (it l))).
        { rewrite (ip_perm _ _ P), ip_app, ip_single. ring. }
        assert (Cl : den FS (coef l) = coeff (ip f) (tm l)) by (symmetry; apply pwf_coeff; assumption).
        rewrite <- El in *.
        destruct (ds_rem f0 (map ip divs) (map ip quots) (ip rem) (ip f) (den FS (coef l)) (tm l) (ip rem') (ip f')) as [D' Low]; auto.
        { intros g0 l0 I0 L0. apply in_map_iff in I0 as (g1 & <- & I1). eapply H; eassumption. }
        apply (Rec (tm l) Lt); auto.
      * destruct V as [-> ->]. apply Permutation_sym in P. apply Permutation_nil in P. subst f. contradiction.
Qed.

Theorem divide_ok f divs : pwf f -> Forall pwf divs ->
  evs (fun fuel => divide Debug O fuel f divs)
    (fun o => pwf (fst o) /\ Forall pwf (snd o) /\ div_ok (ip f) (map ip divs) (map ip (snd o)) (ip (fst o))).
Proof.
  intros Wf Wd.
  assert (V : exists n, svars n (ip f) /\ forall g, In g divs -> svars n (ip g)).
  { destruct (svars_exists (ip f)) as (n & Vf).
    assert (X : exists n', forall h, In h divs -> svars n' (ip h)).
    { clear. induction divs as [|h H (n & IH)]; [exists 0; intros h []|]. destruct (svars_exists (ip h)) as (n' & V).
      exists (Nat.max n n'). intros x [->|I]; [apply (svars_le n')|apply (svars_le n)]; auto; lia. }
    destruct X as (n' & V). exists (Nat.max n n'). split; [apply (svars_le n); [lia|exact Vf]|].
    intros h I. apply (svars_le n'); [lia|auto]. }
  destruct V as (n & Vf & Vd).
  assert (Q0 : Forall pwf (repeat poly_zero (length divs))).
  { rewrite Forall_forall. intros x I. apply repeat_spec in I. subst. apply pwf_nil. }
  assert (D0 : div_state (ip f) (map ip divs) (map ip (repeat poly_zero (length divs))) (ip poly_zero) (ip f)).
  { apply ds_init.
    - rewrite !map_length, repeat_length. reflexivity.
    - intros q I. apply in_map_iff in I as (x & <- & I). apply repeat_spec in I. subst. reflexivity. }
  unfold divide. destruct (zero_or_lm olt laws (ip f)) as [Z|(m & Hm)].
  - apply (pwf_zero_iff FS f Wf) in Z. subst f. eexists 0, (Ok (_, _)). split; [intros [|k] _; reflexivity|].
    simpl. split; [apply pwf_nil|]. split; [exact Q0|exact D0].
  - eapply (div_loop_aux (ip f) divs n Wd Vf Vd m); auto.
    + apply Vf. apply Hm.
    + apply pwf_nil.
    + apply Hm.
Qed.

(** consequences used by the Groebner part *)
Lemma div_ok_ideal f divs qs r : div_ok f divs qs r -> in_ideal divs (psub f r).
Proof.
  intros D. exists qs. split; [apply D|]. pose proof (ds_eq _ _ _ _ _ D) as E. rewrite E at 1. ring.
Qed.
Lemma div_ok_rep f divs qs r n B : div_ok f divs qs r -> svars n f -> (forall g, In g divs -> svars n g) ->
  (forall m, coeff f m <> k0 -> mle m B) -> rep olt divs n (fun x => mle x B) (psub f r).
Proof.
  intros D Vf Vg HB.
  assert (E : peq (psub f r) (lincomb qs divs)) by (rewrite (ds_eq _ _ _ _ _ D) at 1; ring).
  rewrite E. destruct (ds_vars _ _ _ _ _ D n Vf Vg) as (Vq & _ & _).
  assert (G : forall G' qs', length qs' = length G' -> 
     (forall i q g, nth_error qs' i = Some q -> nth_error G' i = Some g -> In g divs /\ svars n q /\
        (peq g pzero -> peq q pzero) /\ forall l a, LM g l -> coeff q a <> k0 -> mle (mmul a l) B) ->
     rep olt divs n (fun x => mle x B) (lincomb qs' G')).
  { clear - laws. induction G' as [|g G' IH]; intros [|q qs'] Len H; try discriminate; [apply rep_zero|].
    simpl. destruct (H 0 q g eq_refl eq_refl) as (I & V & Z & Bd). apply rep_add.
    - destruct (zero_or_lm olt laws g) as [Zg|(l & Lg)].
      + assert (X : peq (pmul q g) pzero) by (rewrite Zg; ring). rewrite X. apply rep_zero.
      + apply (rep_pmul olt divs n _ q g l); auto.
    - apply IH; [simpl in Len; lia|]. intros i q' g' Hq Hg. apply (H (S i)); assumption. }
  apply G; [apply D|]. intros i q g Hq Hg.
  split; [eapply nth_error_In; exact Hg|]. split; [apply Vq; eapply nth_error_In; exact Hq|].
  split; [eapply (ds_zero _ _ _ _ _ D); eassumption|]. intros l a Ll X. eapply (ds_qbound _ _ _ _ _ D B HB); eassumption.
Qed.

(** ** monic_lcm and S-polynomials *)
Lemma mdeg_lcm_zip a : forall b, mdeg_lcm a b = lzip Nat.max a b.
Proof.
  unfold mdeg_lcm. induction a as [|x a IH]; intros [|y b]; simpl; auto.
  - f_equal. rewrite map_map. simpl. rewrite map_id. destruct b; reflexivity.
  - f_equal; [lia|]. rewrite IH. destruct a; reflexivity.
  - f_equal. apply IH.
Qed.
Lemma lzip_max_length a : forall b, length (lzip Nat.max a b) = Nat.max (length a) (length b).
Proof.
  induction a as [|x a IH]; intros b; simpl; [apply map_length|].
  destruct b as [|y b]; simpl; rewrite IH; simpl; lia.
Qed.
Lemma last_expo l d : l <> [] -> expo l (length l - 1) = last l d.
Proof.
  intros N. induction l as [|x l IH]; [congruence|]. destruct l as [|y l]; [reflexivity|].
  change (last (x :: y :: l) d) with (last (y :: l) d). rewrite <- IH by discriminate.
  replace (length (x :: y :: l) - 1) with (S (length (y :: l) - 1)) by (simpl; lia). apply expo_cons_S.
Qed.
Lemma mdeg_lcm_wf a b : mwf a -> mwf b -> mwf (mdeg_lcm a b) /\ canon (mdeg_lcm a b) = mlcm (canon a) (canon b).
Proof.
  intros [Ca Ua] [Cb Ub]. rewrite mdeg_lcm_zip.
  assert (Ex : forall i, expo (lzip Nat.max a b) i = Nat.max (expo a i) (expo b i)) by (intros i; apply lzip_expo; reflexivity).
  split; [split|].
  - destruct (lzip Nat.max a b) as [|x l] eqn:E; [discriminate|]. rewrite <- E.
    assert (Len : length (lzip Nat.max a b) <> 0) by (rewrite E; discriminate). rewrite lzip_max_length in Len.
    unfold canonical. intros Z.
    assert (Last : expo (lzip Nat.max a b) (length (lzip Nat.max a b) - 1) = 0).
    { rewrite (last_expo _ 1); [exact Z|]. rewrite E. discriminate. }
    rewrite lzip_max_length, E, Ex in Last.
    destruct (Nat.max_spec (length a) (length b)) as [[H1 H2]|[H1 H2]]; rewrite H2 in Last.
    + apply (canonical_last b Cb); [intros ->; simpl in *; lia|]. lia.
    + apply (canonical_last a Ca); [intros ->; simpl in *; lia|]. lia.
  - apply expo_u8. intros i. rewrite Ex. pose proof (u8_expo a i Ua). pose proof (u8_expo b i Ub). lia.
  - apply mono_ext. intros i. rewrite mlcm_exp, !canon_exp, Ex. reflexivity.
Qed.

Lemma monic_lcm_ok s t : twf s -> twf t ->
  twf (monic_lcm s t) /\ coef (monic_lcm s t) = f1 /\ tm (monic_lcm s t) = mlcm (tm s) (tm t).
Proof.
  intros (Fs & Ns & Ms) (Ft & Nt & Mt). unfold monic_lcm.
  destruct (term_is_zero s) eqn:Es; [apply (is_zero_spec FS s Fs) in Es; contradiction|].
  destruct (term_is_zero t) eqn:Et; [apply (is_zero_spec FS t Ft) in Et; contradiction|]. simpl.
  destruct (mdeg_lcm_wf (tdeg s) (tdeg t) Ms Mt) as [W E]. split; [|split; [reflexivity|exact E]].
  split; [apply (wf1 _ _ FS)|]. split; [|exact W]. simpl. rewrite (den1 _ _ FS). apply k1_neq_0.
Qed.
Lemma monic_lcm_zero s t : twf0 s -> twf0 t -> den FS (coef s) = k0 \/ den FS (coef t) = k0 -> monic_lcm s t = term_zero.
Proof.
  intros Hs Ht H. unfold monic_lcm. destruct H as [H|H].
  - apply (is_zero_spec FS s (proj1 Hs)) in H. rewrite H. reflexivity.
  - apply (is_zero_spec FS t (proj1 Ht)) in H. rewrite H. rewrite orb_true_r. reflexivity.
Qed.

Lemma try_reduce_ok f g : pwf f -> pwf g ->
  safe (try_reduce Debug O f g) (fun o => match o with
    | None => f = [] \/ g = []
    | Some s => pwf s /\ exists l l', LM (ip f) l /\ LM (ip g) l' /\ peq (ip s) (spol (ip f) l (ip g) l')
    end).
Proof.
  intros Wf Wg. unfold try_reduce.
  eapply safe_bind; [apply leading_term_ok; exact Wf|]. intros [tf|] Hf; [|left; exact Hf].
  eapply safe_bind; [apply leading_term_ok; exact Wg|]. intros [tg|] Hg; [|right; exact Hg].
  destruct Hf as (If & Wtf & Lf & Cf). destruct Hg as (Ig & Wtg & Lg & Cg). cbv zeta.
  destruct (monic_lcm_ok tf tg Wtf Wtg) as (Wl & Cl & El).
  assert (D1 : den FS (coef (monic_lcm tf tg)) = k1) by (rewrite Cl; apply (den1 _ _ FS)).
  assert (Quo : forall (t : term) m a, tm (monic_lcm tf tg) = mmul (tm t) a -> m = mquo (tm (monic_lcm tf tg)) (tm t) -> a = m).
  { intros t m a E ->. rewrite E, mquo_mul. reflexivity. }
  eapply safe_bind; [apply (term_try_div_ok FS); [exact Wl|exact Wtf]|]. intros [a|] Ha.
  2:{ exfalso. apply Ha. rewrite El. apply mdiv_lcm_l. }
  destruct Ha as (Wa & Ea & Da).
  eapply safe_bind; [apply term_mul_poly_ok; eassumption|]. intros af [Waf Eaf].
  eapply safe_bind; [apply (term_try_div_ok FS); [exact Wl|exact Wtg]|]. intros [b|] Hb.
  2:{ exfalso. apply Hb. rewrite El. apply mdiv_lcm_r. }
  destruct Hb as (Wb & Eb & Db).
  eapply safe_bind; [apply term_mul_poly_ok; eassumption|]. intros bg [Wbg Ebg].
  eapply safe_bind; [apply (poly_sub_ok FS af bg); [exact Waf|apply Forall_twf0; apply Wbg]|]. intros s [Ws Es]. simpl.
  split; [exact Ws|]. exists (tm tf), (tm tg). split; [exact Lf|]. split; [exact Lg|].
  rewrite Es, Eaf, Ebg. unfold spol.
  rewrite (Quo tf _ _ Ea eq_refl), (Quo tg _ _ Eb eq_refl), El, Da, Db, D1, Cf, Cg.
  assert (X : forall x : K, x <> k0 -> kdiv k1 x = kinv x) by (intros x N; field; exact N).
  rewrite !X; [reflexivity|apply Wtg|apply Wtf].
Qed.

End DivProofs.
