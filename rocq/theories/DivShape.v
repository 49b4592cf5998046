(** * Division and Groebner bases over an arbitrary coefficient type: what does not depend on the arithmetic.

    Nothing is assumed of the field operations here; they may round, panic or not terminate. *)
From Verif Require Import Base BaseLemmas FieldIface MDegModel OrdModel PolyModel CompModel MonoSpec MDegProofs OrdProofs
  PolySpec GroebnerSpec DivProofs.
From Coq Require Import Setoid Morphisms Permutation Sorted Lia.
Local Open Scope nat_scope.

Section Shape.
Context {F : FieldImpl} {O : ord_impl} (OS : OrderSpec O).
Notation term := (term F).
Notation poly := (poly F).
Notation olt := (olt OS).
Notation tm t := (canon (tdeg t)).
Notation mle := (mle olt).
Let laws := olaws _ OS.
Definition dwf (t : term) : Prop := mwf (tdeg t).
Notation twf0 := dwf.

Lemma tcmp_ok s t : twf0 s -> twf0 t ->
  safe (term_cmp O s t) (fun c => CompareSpec (tm s = tm t) (olt (tm s) (tm t)) (olt (tm t) (tm s)) c).
Proof. intros Hs Ht. apply (ocmp_ok _ OS); [exact Hs|exact Ht]. Qed.

(** ** sort_by *)
Notation asc := (StronglySorted (fun s t : term => mle (tm s) (tm t))).
Definition same_tm (d : mono) (s : term) : bool := if mono_dec (tm s) d then true else false.

Lemma insert_ok x l : twf0 x -> Forall twf0 l -> asc l ->
  safe (insert_by (term_cmp O) x l) (fun r => Permutation (x :: l) r /\ asc r /\
     forall d, filter (same_tm d) r = filter (same_tm d) (x :: l)).
Proof.
  intros Hx Hl S. induction l as [|y l IH]; simpl.
  - split; [reflexivity|]. split; [constructor; constructor|reflexivity].
  - inversion Hl as [|? ? Hy Hl']; subst. inversion S as [|? ? S' M]; subst.
    eapply safe_bind; [apply tcmp_ok; assumption|]. intros c Hc.
    assert (Low : mle (tm x) (tm y) -> Forall (fun t => mle (tm x) (tm t)) (y :: l)).
    { intros L. constructor; [exact L|]. eapply Forall_impl; [|exact M]. intros t X. cbv beta in *.
      eapply (mle_trans olt laws); eassumption. }
    destruct Hc as [E|E|E]; simpl.
    + split; [reflexivity|]. split; [|reflexivity]. constructor; [exact S|]. apply Low. left. exact E.
    + split; [reflexivity|]. split; [|reflexivity]. constructor; [exact S|]. apply Low. right. exact E.
    + eapply safe_bind; [apply IH; assumption|]. intros r (P & Sr & Fr). simpl. split; [|split].
      * rewrite perm_swap, P. reflexivity.
      * constructor; [exact Sr|]. rewrite <- P. constructor; [right; exact E|exact M].
      * intros d. rewrite Fr. simpl. unfold same_tm.
        destruct (mono_dec (tm x) d) as [E1|]; destruct (mono_dec (tm y) d) as [E'|]; try reflexivity.
        exfalso. rewrite E', E1 in E. apply (lt_irrefl olt laws _ E).
Qed.
Lemma sort_ok f : Forall twf0 f ->
  safe (sort_by (term_cmp O) f) (fun r => Permutation f r /\ asc r /\
     forall d, filter (same_tm d) r = filter (same_tm d) f).
Proof.
  induction 1 as [|x l Hx Hl IH]; simpl.
  - split; [constructor|]. split; [constructor|reflexivity].
  - eapply safe_bind; [exact IH|]. intros r (P & S & Fr).
    eapply safe_mono; [apply insert_ok; auto; rewrite <- P; exact Hl|]. intros r' (P' & S' & Fr').
    split; [rewrite P; exact P'|]. split; [exact S'|]. intros d. rewrite Fr'. simpl. rewrite Fr. reflexivity.
Qed.

(** ** max_by: the last of the greatest terms *)
Lemma max_fold_ok l : forall x, twf0 x -> Forall twf0 l ->
  safe (foldM (fun best y => c <- term_cmp O best y ;; Ok (match c with Gt => best | _ => y end)) l x)
    (fun t => exists pre post, x :: l = pre ++ t :: post /\
        Forall (fun s => mle (tm s) (tm t)) pre /\ Forall (fun s => olt (tm s) (tm t)) post).
Proof.
  induction l as [|y l IH]; intros x Hx Hl; simpl.
  - exists [], []. auto.
  - inversion Hl as [|? ? Hy Hl']; subst. rewrite bind_assoc. eapply safe_bind; [apply tcmp_ok; assumption|].
    intros c Hc. simpl.
    assert (Next : mle (tm x) (tm y) ->
       safe (foldM (fun best y => c <- term_cmp O best y ;; Ok (match c with Gt => best | _ => y end)) l y)
        (fun t => exists pre post, x :: y :: l = pre ++ t :: post /\
            Forall (fun s => mle (tm s) (tm t)) pre /\ Forall (fun s => olt (tm s) (tm t)) post)).
    { intros L. eapply safe_mono; [apply IH; assumption|]. intros t (pre & post & E & A & B).
      exists (x :: pre), post. rewrite E. split; [reflexivity|]. split; [|exact B]. constructor; [|exact A].
      destruct pre as [|z pre]; injection E as -> _.
      - exact L.
      - inversion A; subst. eapply (mle_trans olt laws); eassumption. }
    destruct Hc as [E|E|E].
    + apply Next. left. exact E.
    + apply Next. right. exact E.
    + eapply safe_mono; [apply IH; assumption|]. intros t (pre & post & E' & A & B).
      destruct pre as [|z pre]; injection E' as <- ->.
      * exists [], (y :: post). split; [reflexivity|]. split; [constructor|]. constructor; assumption.
      * inversion A as [|? ? A1 A2]; subst. exists (x :: y :: pre), post. split; [reflexivity|]. split; [|exact B].
        constructor; [exact A1|]. constructor; [|exact A2]. right. eapply (lt_mle_trans olt laws); eassumption.
Qed.
Lemma max_by_ok f : Forall twf0 f ->
  safe (leading_term O f) (fun o => match o with
    | None => f = []
    | Some t => exists pre post, f = pre ++ t :: post /\
        Forall (fun s => mle (tm s) (tm t)) pre /\ Forall (fun s => olt (tm s) (tm t)) post
    end).
Proof.
  intros H. unfold leading_term, max_by. destruct f as [|x l]; [reflexivity|]. inversion H; subst.
  eapply safe_bind; [apply max_fold_ok; assumption|]. intros t Ht. exact Ht.
Qed.

(** ** Degrees of sums and products *)
Lemma add_term_degs (p q : poly) t u : poly_add_term p t = Ok q -> In u q ->
  (exists s, In s p /\ tdeg s = tdeg u) \/ tdeg u = tdeg t.
Proof.
  unfold poly_add_term. destruct (poly_is_zero p) eqn:Z.
  - intros H. injection H as <-. unfold poly_from_term. destruct (term_is_zero t); [intros []|]. intros [<-|[]]. auto.
  - destruct (term_is_zero t); [intros H; injection H as <-; intros I; left; eauto|].
    destruct (position _ p) as [i|] eqn:P.
    + destruct (position_Some _ _ _ P) as (l1 & x & l2 & -> & <- & Ex & _).
      intros H. apply bind_Ok in H as (ti & E & H). apply bind_Ok in H as (c & _ & H).
      unfold vget in E. assert (V : nth_error (l1 ++ x :: l2) (length l1) = Some x).
      { rewrite nth_error_app2, Nat.sub_diag by lia. reflexivity. }
      rewrite V in E. injection E as <-.
      assert (Rm : list_remove (l1 ++ x :: l2) (length l1) = l1 ++ l2).
      { clear. induction l1; simpl; [reflexivity|]. f_equal. exact IHl1. }
      assert (St : forall y, list_set (l1 ++ x :: l2) (length l1) y = l1 ++ y :: l2).
      { clear. induction l1; intros y; simpl; [reflexivity|]. f_equal. apply IHl1. }
      destruct (term_is_zero _); injection H as <-; [rewrite Rm|rewrite St]; intros I; left.
      * exists u. split; [|reflexivity]. apply in_app_or in I as [I|I]; apply in_or_app; [auto|right; right; exact I].
      * apply in_app_or in I as [I|[<-|I]]; [exists u|exists x|exists u]; (split; [|reflexivity]); apply in_or_app; simpl; auto.
    + intros H. injection H as <-. intros I. apply in_app_or in I as [I|[<-|[]]]; [left; eauto|right; reflexivity].
Qed.
Lemma poly_add_degs (q : poly) : forall p r u, poly_add p q = Ok r -> In u r -> exists s, (In s p \/ In s q) /\ tdeg s = tdeg u.
Proof.
  unfold poly_add. induction q as [|t q IH]; intros p r u; cbn [foldM].
  - intros H. injection H as <-. eauto.
  - intros H I. apply bind_Ok in H as (p' & E & H). destruct (IH _ _ _ H I) as (s & [Is|Is] & Es); [|exists s; simpl; auto].
    destruct (add_term_degs _ _ _ _ E Is) as [(s' & Is' & Es')|Et].
    + exists s'. split; [auto|congruence].
    + exists t. split; [simpl; auto|congruence].
Qed.
Lemma add_term_dwf (p q : poly) t : poly_add_term p t = Ok q -> Forall dwf p -> dwf t -> Forall dwf q.
Proof.
  intros E Hp Ht. apply Forall_forall. intros u I. destruct (add_term_degs _ _ _ _ E I) as [(s & Is & Es)|Es].
  - rewrite Forall_forall in Hp. specialize (Hp s Is). unfold dwf in *. congruence.
  - unfold dwf in *. congruence.
Qed.
Lemma poly_add_dwf (p q r : poly) : poly_add p q = Ok r -> Forall dwf p -> Forall dwf q -> Forall dwf r.
Proof.
  intros E Hp Hq. rewrite Forall_forall in *. intros u I. destruct (poly_add_degs _ _ _ _ E I) as (s & [Is|Is] & Es);
    [specialize (Hp s Is)|specialize (Hq s Is)]; unfold dwf in *; congruence.
Qed.
Lemma neg_dwf (p q : poly) : poly_neg p = Ok q -> Forall dwf p -> Forall dwf q.
Proof.
  revert q. induction p as [|t p IH]; intros q; unfold poly_neg; cbn [mapM].
  - intros H. injection H as <-. auto.
  - intros H W. apply bind_Ok in H as (t' & E & H). apply bind_Ok in H as (q' & E' & H). injection H as <-.
    inversion W; subst. constructor; [|apply IH; assumption].
    unfold term_neg in E. apply bind_Ok in E as (c & _ & E). injection E as <-. assumption.
Qed.
Lemma poly_sub_dwf (p q r : poly) : poly_sub p q = Ok r -> Forall dwf p -> Forall dwf q -> Forall dwf r.
Proof.
  unfold poly_sub. intros E Hp Hq. apply bind_Ok in E as (nq & E1 & E). eapply poly_add_dwf; [exact E|exact Hp|].
  eapply neg_dwf; eassumption.
Qed.
Lemma mul_term_dwf (p q : poly) t : poly_mul_term Debug p t = Ok q -> Forall dwf p -> dwf t -> Forall dwf q.
Proof.
  unfold poly_mul_term. destruct (_ || _); [intros H; injection H as <-; constructor|].
  revert q. induction p as [|s p IH]; intros q; cbn [mapM].
  - intros H. injection H as <-. auto.
  - intros H W Wt. apply bind_Ok in H as (s' & E & H). apply bind_Ok in H as (q' & E' & H). injection H as <-.
    inversion W as [|? ? Ws Wp]; subst. constructor; [|apply IH; assumption].
    unfold term_mul in E. destruct (_ || _); [injection E as <-; apply mwf_nil|].
    apply bind_Ok in E as (c & _ & E). apply bind_Ok in E as (d & Ed & E). injection E as <-.
    apply (safe_val _ _ _ (mdeg_add_safe _ _ (proj2 Ws) (proj2 Wt)) Ed).
Qed.

(** ** The division loop *)
(** what trying the divisors returns *)
Lemma try_divisors_shape lt_f : dwf lt_f -> forall divs quots, length quots = length divs -> Forall (Forall dwf) divs ->
  forall o, try_divisors O lt_f divs quots = Ok o ->
  match o with
  | Some (qs, a, g) => length qs = length divs /\ dwf a /\ Forall dwf g
  | None => forall g lg, In g divs -> leading_term O g = Ok (Some lg) -> feqb (coef lg) f0 = false ->
      ~ mdiv (tm lg) (tm lt_f)
  end.
Proof.
  intros Wf. induction divs as [|g divs IH]; intros quots L Wd o E.
  - destruct quots; [|discriminate L]. injection E as <-. intros g lg [].
  - destruct quots as [|q quots]; [discriminate L|]. injection L as L. inversion Wd as [|? ? Wg Wd']; subst.
    cbn [try_divisors] in E.
    assert (Skip : (r <- try_divisors O lt_f divs quots ;;
        Ok (match r with None => None | Some (qs, a, g') => Some (q :: qs, a, g') end)) = Ok o ->
      match o with
      | Some (qs, a, g') => length qs = length (g :: divs) /\ dwf a /\ Forall dwf g'
      | None => forall g' lg, In g' divs -> leading_term O g' = Ok (Some lg) -> feqb (coef lg) f0 = false ->
          ~ mdiv (tm lg) (tm lt_f)
      end).
    { intros H. apply bind_Ok in H as (r & Er & H). specialize (IH _ L Wd' _ Er). injection H as <-.
      destruct r as [[[qs a] g']|]; [|exact IH]. destruct IH as (A & B & C). cbn [length]. auto. }
    apply bind_Ok in E as (o2 & El & E). destruct o2 as [lg|].
    2:{ specialize (Skip E). destruct o as [[[qs a] g']|]; [exact Skip|]. intros g' lg' [<-|I]; [congruence|]. eauto. }
    apply bind_Ok in E as (d & Ed & E). destruct d as [a|].
    + apply bind_Ok in E as (q' & _ & E). injection E as <-. cbn [length]. split; [congruence|]. split; [|exact Wg].
      unfold term_try_div in Ed. destruct (term_is_zero lt_f); [injection Ed as <-; apply mwf_nil|].
      destruct (term_is_zero lg); [discriminate|]. apply bind_Ok in Ed as (c & _ & Ed).
      assert (Wl : dwf lg).
      { pose proof (safe_val _ _ _ (max_by_ok g Wg) El) as (pre & post & -> & _).
        rewrite Forall_forall in Wg. apply Wg. apply in_elt. }
      pose proof (checked_sub_spec _ _ Wf Wl) as H. destruct (mdeg_checked_sub _ _) as [d|]; [|discriminate].
      injection Ed as <-. apply H.
    + specialize (Skip E). destruct o as [[[qs a] g']|]; [exact Skip|].
      intros g' lg' [<-|I] El' Nz; [|eauto]. rewrite El in El'. injection El' as <-.
      unfold term_try_div in Ed. destruct (term_is_zero lt_f); [discriminate|].
      unfold term_is_zero in Ed. rewrite Nz in Ed. apply bind_Ok in Ed as (c & _ & Ed).
      assert (Wl : dwf lg).
      { pose proof (safe_val _ _ _ (max_by_ok g Wg) El) as (pre & post & -> & _).
        rewrite Forall_forall in Wg. apply Wg. apply in_elt. }
      pose proof (checked_sub_spec _ _ Wf Wl) as H. destruct (mdeg_checked_sub _ _); [discriminate|exact H].
Qed.
Definition reduced_by (divs : list poly) (u : term) : Prop := forall g lg, In g divs ->
  leading_term O g = Ok (Some lg) -> feqb (coef lg) f0 = false -> ~ mdiv (tm lg) (tm u).
Lemma divide_loop_shape divs : Forall (Forall dwf) divs -> forall n f quots rem r qs,
  Forall dwf f -> length quots = length divs -> Forall (reduced_by divs) rem ->
  divide_loop Debug O n f divs quots rem = Ok (r, qs) ->
  length qs = length divs /\ Forall (reduced_by divs) r.
Proof.
  intros Wd. induction n as [|n IH]; intros f quots rem r qs Wf L Hr; cbn [divide_loop]; intros E;
    apply bind_Ok in E as (o & El & E); destruct o as [lt|];
    [discriminate|injection E as <- <-; auto| |injection E as <- <-; auto].
  pose proof (safe_val _ _ _ (max_by_ok f Wf) El) as (pre & post & Ef & Hpre & Hpost).
  assert (Wlt : dwf lt).
  { rewrite Forall_forall in Wf. apply Wf. rewrite Ef. apply in_elt. }
  apply bind_Ok in E as (o & Et & E). pose proof (try_divisors_shape lt Wlt divs quots L Wd o Et) as H.
  destruct o as [[[qs' a] g]|].
  - destruct H as (L' & Wa & Wg). apply bind_Ok in E as (ag & Ea & E). apply bind_Ok in E as (f' & Es & E).
    eapply IH; [|exact L'|exact Hr|exact E]. eapply poly_sub_dwf; [exact Es|exact Wf|].
    eapply mul_term_dwf; [exact Ea|exact Wg|exact Wa].
  - apply bind_Ok in E as (fs & Es & E). pose proof (safe_val _ _ _ (sort_ok f Wf) Es) as (P & Sd & _).
    assert (Wfs : Forall dwf fs) by (rewrite <- P; exact Wf).
    pose proof (vec_pop_spec fs) as Vp. destruct (vec_pop fs) as [f' [l|]].
    + assert (Wl : Forall dwf f' /\ dwf l).
      { rewrite Vp, Forall_app in Wfs. destruct Wfs as [A B]. inversion B; auto. }
      apply bind_Ok in E as (rem' & Er & E). eapply IH; [apply Wl|exact L| |exact E].
      assert (Em : tm l = tm lt).
      { apply (mle_antisym olt laws).
        - assert (I : In l f) by (eapply Permutation_in; [symmetry; exact P|rewrite Vp; apply in_elt]).
          rewrite Ef in I. apply in_app_or in I as [I|[<-|I]].
          + rewrite Forall_forall in Hpre. auto.
          + apply mle_refl.
          + rewrite Forall_forall in Hpost. right. auto.
        - assert (I : In lt fs) by (eapply Permutation_in; [exact P|rewrite Ef; apply in_elt]).
          rewrite Vp in I, Sd. clear - I Sd. induction f' as [|x f' IH].
          + destruct I as [->|[]]. apply mle_refl.
          + cbn [app] in *. inversion Sd as [|? ? S' H]; subst. destruct I as [->|I]; [|auto].
            rewrite Forall_forall in H. apply H. apply in_elt. }
      apply Forall_forall. intros u I. destruct (add_term_degs _ _ _ _ Er I) as [(s & Is & Ed)|Ed].
      * rewrite Forall_forall in Hr. specialize (Hr s Is). unfold reduced_by in *. rewrite <- Ed. exact Hr.
      * unfold reduced_by. rewrite Ed, Em. exact H.
    + destruct Vp as [-> ->]. apply Permutation_sym, Permutation_nil in P. rewrite P in Ef. destruct pre; discriminate Ef.
Qed.
End Shape.
Arguments dwf {F} t.
