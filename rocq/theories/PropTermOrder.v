(** * C131: the order in which results store their terms

    [terms()] shows the stored order.  Addition keeps the order of the first summand and appends the new degrees of the second; division returns
    its remainder and quotients in decreasing order, whatever the order of its arguments, and buchberger_algorithm returns polynomials that are
    in decreasing order or were among the generators. *)
From Coq Require Import ZArith.
From Verif Require Import Base BaseLemmas IntModel RatModel FieldIface RatProofs MDegModel OrdModel PolyModel CompModel
  MonoSpec MDegProofs OrdProofs PolySpec PolyProofs GroebnerSpec DivProofs DivSpec GbProofs CompMono PropPoly PropDiv PropGb.
From Coq Require Import Ring Field Setoid Morphisms Permutation Sorted.
Import ListNotations.
Local Open Scope nat_scope.

(** ** addition, for every coefficient type *)
Section Add.
Context {F : FieldImpl}.
Notation term := (term F).
Notation poly := (poly F).

(** distinct degrees, no zero coefficient *)
Definition tidy (p : poly) : Prop := NoDup (map tdeg p) /\ Forall (fun t : term => feqb (coef t) f0 = false) p.
(** what becomes of the term [s] of the first summand *)
Definition merged (q : poly) (s : term) (l : list term) : Prop :=
  (forall t, In t q -> tdeg t <> tdeg s) /\ l = [s] \/
  exists t c, In t q /\ tdeg t = tdeg s /\ fadd (coef s) (coef t) = Ok c /\ l = if feqb c f0 then [] else [mkterm c (tdeg s)].
(** the terms of the second summand with a degree the first does not have *)
Definition new_terms (p q : poly) : list term := filter (fun t => negb (existsb (fun s => if list_eq_dec Nat.eq_dec (tdeg s) (tdeg t) then true else false) p)) q.

Lemma position_none_deg (p : poly) (t : term) : position (fun s => mdeg_eqb (tdeg s) (tdeg t)) p = None -> forall s, In s p -> tdeg s <> tdeg t.
Proof.
  induction p as [|x p IH]; intros E s I; [destruct I|]. cbn [position] in E. destruct (mdeg_eqb (tdeg x) (tdeg t)) eqn:Q; [discriminate|].
  destruct (position _ p) eqn:P; [discriminate|]. destruct I as [<-|I]; [|apply IH; auto]. intros X. apply mdeg_eqb_eq in X. congruence.
Qed.
Lemma position_some_deg (p : poly) (t : term) i : position (fun s => mdeg_eqb (tdeg s) (tdeg t)) p = Some i ->
  exists p1 s p2, p = p1 ++ s :: p2 /\ length p1 = i /\ tdeg s = tdeg t.
Proof.
  revert i. induction p as [|x p IH]; intros i E; [discriminate|]. cbn [position] in E. destruct (mdeg_eqb (tdeg x) (tdeg t)) eqn:Q.
  - injection E as <-. exists [], x, p. split; [reflexivity|]. split; [reflexivity|]. apply mdeg_eqb_eq. exact Q.
  - destruct (position _ p) as [j|] eqn:P; [|discriminate]. injection E as <-. destruct (IH j eq_refl) as (p1 & s & p2 & -> & L & D).
    exists (x :: p1), s, p2. split; [reflexivity|]. split; [cbn; congruence|exact D].
Qed.
Lemma set_middle (p1 : poly) s p2 s' : list_set (p1 ++ s :: p2) (length p1) s' = p1 ++ s' :: p2.
Proof. induction p1 as [|x p1 IH]; [reflexivity|]. cbn. f_equal. exact IH. Qed.
Lemma remove_middle (p1 : poly) s p2 : list_remove (p1 ++ s :: p2) (length p1) = p1 ++ p2.
Proof. induction p1 as [|x p1 IH]; [reflexivity|]. cbn. f_equal. exact IH. Qed.
Lemma get_middle (p1 : poly) s p2 : vget (p1 ++ s :: p2) (length p1) = Ok s.
Proof. unfold vget. rewrite nth_error_app2 by lia. rewrite Nat.sub_diag. reflexivity. Qed.
Lemma add_absent (p : poly) (t : term) : feqb (coef t) f0 = false -> (forall s, In s p -> tdeg s <> tdeg t) -> poly_add_term p t = Ok (p ++ [t]).
Proof.
  intros N D. unfold poly_add_term. destruct p as [|x p]; cbn [poly_is_zero].
  - unfold poly_from_term, term_is_zero. rewrite N. reflexivity.
  - unfold term_is_zero at 1. rewrite N. destruct (position _ (x :: p)) as [i|] eqn:E; [|reflexivity].
    destruct (position_some_deg _ _ _ E) as (p1 & s & p2 & Ep & _ & Q). exfalso. apply (D s); [rewrite Ep; apply in_app_iff; right; left; reflexivity|exact Q].
Qed.
Lemma add_present p1 (s : term) p2 (t : term) : feqb (coef t) f0 = false -> NoDup (map tdeg (p1 ++ s :: p2)) -> tdeg s = tdeg t ->
  poly_add_term (p1 ++ s :: p2) t = (c <- fadd (coef s) (coef t) ;; Ok (p1 ++ (if feqb c f0 then [] else [mkterm c (tdeg s)]) ++ p2)).
Proof.
  intros N ND D. unfold poly_add_term.
  assert (Z : poly_is_zero (p1 ++ s :: p2) = false) by (destruct p1; reflexivity). rewrite Z. unfold term_is_zero at 1. rewrite N.
  destruct (position _ (p1 ++ s :: p2)) as [i|] eqn:E.
  - destruct (position_some_deg _ _ _ E) as (r1 & u & r2 & Ep & L & Q).
    assert (X : length r1 = length p1).
    { assert (A1 : nth_error (map tdeg (p1 ++ s :: p2)) (length p1) = Some (tdeg t)) by (rewrite nth_error_map, nth_error_app2, Nat.sub_diag by lia; cbn; congruence).
      assert (A2 : nth_error (map tdeg (p1 ++ s :: p2)) (length r1) = Some (tdeg t)) by (rewrite Ep, nth_error_map, nth_error_app2, Nat.sub_diag by lia; cbn; congruence).
      apply (proj1 (NoDup_nth_error _) ND); [apply nth_error_Some; congruence|congruence]. }
    subst i. rewrite X, get_middle. cbn [bind]. destruct (fadd (coef s) (coef t)) as [c|k|]; [|reflexivity..]. cbn [bind]. unfold term_is_zero. cbn [coef].
    destruct (feqb c f0); [rewrite remove_middle; reflexivity|rewrite set_middle; reflexivity].
  - exfalso. apply (position_none_deg _ _ E s); [apply in_app_iff; right; left; reflexivity|exact D].
Qed.
Lemma tidy_app_single p (t : term) : tidy p -> feqb (coef t) f0 = false -> (forall s, In s p -> tdeg s <> tdeg t) -> tidy (p ++ [t]).
Proof.
  intros [ND NZ] N D. split; [|apply Forall_app; split; [exact NZ|constructor; [exact N|constructor]]]. rewrite map_app. apply (Permutation_NoDup (l := tdeg t :: map tdeg p)).
  - apply Permutation_cons_append.
  - constructor; [|exact ND]. intros I. apply in_map_iff in I as (s & E & I). exact (D s I E).
Qed.
Lemma merged_skip (q : poly) (t : term) s l : tdeg t <> tdeg s -> (merged (t :: q) s l <-> merged q s l).
Proof.
  intros D. split.
  - intros [[A E]|(u & c & I & Q & R)]; [left; split; [intros u I; apply A; right; exact I|exact E]|]. destruct I as [<-|I]; [contradiction|]. right. exists u, c. auto.
  - intros [[A E]|(u & c & I & Q & R)]; [left; split; [intros u [<-|I]; auto|exact E]|]. right. exists u, c. split; [right; exact I|auto].
Qed.
Lemma merged_skip_all (q : poly) (t : term) p ls : (forall s, In s p -> tdeg s <> tdeg t) -> (Forall2 (merged (t :: q)) p ls <-> Forall2 (merged q) p ls).
Proof.
  intros D. revert ls. induction p as [|s p IH]; intros ls; [split; inversion 1; constructor|].
  assert (Ds : tdeg t <> tdeg s) by (intros E; apply (D s (or_introl eq_refl)); congruence).
  split; inversion 1; subst; constructor; try (apply (merged_skip q t s _ Ds); assumption); apply IH; auto; intros u I; apply D; right; exact I.
Qed.
Lemma new_ext (p p' q : poly) : (forall t, In t q -> (exists s, In s p /\ tdeg s = tdeg t) <-> (exists s, In s p' /\ tdeg s = tdeg t)) -> new_terms p q = new_terms p' q.
Proof.
  intros H. unfold new_terms. apply filter_ext_in. intros t I. f_equal. apply Bool.eq_true_iff_eq. rewrite !existsb_exists.
  assert (X : forall r : poly, (exists x, In x r /\ (if list_eq_dec Nat.eq_dec (tdeg x) (tdeg t) then true else false) = true) <-> exists s, In s r /\ tdeg s = tdeg t).
  { intros r. split; intros (x & Ix & E); exists x; (split; [exact Ix|]); destruct (list_eq_dec Nat.eq_dec (tdeg x) (tdeg t)); congruence. }
  rewrite !X. apply H. exact I.
Qed.
Lemma new_cons (p q : poly) (t : term) : new_terms p (t :: q) = (if existsb (fun s => if list_eq_dec Nat.eq_dec (tdeg s) (tdeg t) then true else false) p then [] else [t]) ++ new_terms p q.
Proof. unfold new_terms. cbn [filter]. destruct (existsb _ p); reflexivity. Qed.
Lemma exist_deg (p : poly) (t : term) : existsb (fun s => if list_eq_dec Nat.eq_dec (tdeg s) (tdeg t) then true else false) p = true <-> exists s, In s p /\ tdeg s = tdeg t.
Proof. rewrite existsb_exists. split; intros (x & Ix & E); exists x; (split; [exact Ix|]); destruct (list_eq_dec Nat.eq_dec (tdeg x) (tdeg t)); congruence. Qed.
Lemma Forall2_mid {A B} (R : A -> B -> Prop) a x b ls : Forall2 R (a ++ x :: b) ls <-> exists la y lb, ls = la ++ y :: lb /\ Forall2 R a la /\ R x y /\ Forall2 R b lb.
Proof.
  split.
  - intros H. apply Forall2_app_inv_l in H as (la & l2 & Ha & H2 & ->). inversion H2; subst. eauto 8.
  - intros (la & y & lb & -> & Ha & Hx & Hb). apply Forall2_app; [exact Ha|constructor; assumption].
Qed.

Theorem C131_add : forall p q r : poly, tidy p -> tidy q ->
  (poly_add p q = Ok r <-> exists ls, Forall2 (merged q) p ls /\ r = concat ls ++ new_terms p q).
Proof.
  intros p q. revert p. induction q as [|t q IH]; intros p r Tp Tq.
  - cbn [poly_add foldM]. unfold poly_add. cbn [foldM]. split.
    + intros E. injection E as <-. exists (map (fun s => [s]) p). split.
      * clear. induction p as [|s p IH]; [constructor|]. cbn. constructor; [|exact IH]. left. split; [intros t []|reflexivity].
      * rewrite app_nil_r. clear. induction p as [|s p IH]; [reflexivity|]. cbn. f_equal. exact IH.
    + intros (ls & H & ->). rewrite app_nil_r. f_equal. clear Tp Tq. induction H as [|s l p ls M _ IH]; [reflexivity|]. cbn.
      destruct M as [[_ ->]|(t & c & [] & _)]. cbn. f_equal. exact IH.
  - destruct Tq as [NDq NZq]. cbn [map] in NDq. inversion NDq as [|? ? Nt NDq']; subst. inversion NZq as [|? ? Nz NZq']; subst.
    assert (Tq' : tidy q) by (split; assumption). assert (Dq : forall u, In u q -> tdeg u <> tdeg t) by (intros u I E; apply Nt; rewrite <- E; apply in_map; exact I).
    unfold poly_add. cbn [foldM]. fold (@poly_add F). 
    destruct (existsb (fun s => if list_eq_dec Nat.eq_dec (tdeg s) (tdeg t) then true else false) p) eqn:Ex.
    + pose proof Ex as Ex'. apply exist_deg in Ex' as (s & Is & Ds). apply in_split in Is as (p1 & p2 & ->). destruct Tp as [NDp NZp].
      rewrite (add_present p1 s p2 t Nz NDp Ds). rewrite new_cons, Ex. cbn [app].
      assert (D1 : forall u, In u (p1 ++ p2) -> tdeg u <> tdeg t).
      { intros u I E. rewrite map_app in NDp. cbn [map] in NDp. apply NoDup_remove_2 in NDp. apply NDp. rewrite <- map_app, Ds, <- E. apply in_map. exact I. }
      assert (NDs : NoDup (map tdeg (p1 ++ p2))) by (rewrite map_app in NDp |- *; apply NoDup_remove_1 in NDp; exact NDp).
      assert (NZ12 : Forall (fun t : term => feqb (coef t) f0 = false) (p1 ++ p2)) by (apply Forall_app in NZp as [A B]; inversion B; subst; apply Forall_app; auto).
      assert (Hs : forall c l, fadd (coef s) (coef t) = Ok c -> (merged (t :: q) s l <-> l = if feqb c f0 then [] else [mkterm c (tdeg s)])).
      { intros c l Ec. split.
        - intros [[A _]|(u & c' & I & Q & R & ->)]; [exfalso; apply (A t (or_introl eq_refl)); congruence|]. destruct I as [<-|I]; [assert (c' = c) by congruence; subst c'; reflexivity|].
          exfalso. apply (Dq u I). congruence.
        - intros ->. right. exists t, c. split; [left; reflexivity|auto]. }
      destruct (fadd (coef s) (coef t)) as [c|k|] eqn:Ec; cbn [bind].
      2,3: split; [discriminate|]; intros (ls & H & _); exfalso; apply Forall2_mid in H as (la & y & lb & _ & _ & M & _);
           destruct M as [[A _]|(u & c' & I & Q & R & _)]; [apply (A t (or_introl eq_refl)); congruence|]; destruct I as [<-|I]; [congruence|apply (Dq u I); congruence].
      destruct (feqb c f0) eqn:Zc.
      * cbn [app]. rewrite (IH (p1 ++ p2) r (conj NDs NZ12) Tq'). split.
        -- intros (ls & H & ->). apply Forall2_app_inv_l in H as (la & lb & Ha & Hb & ->). exists (la ++ [] :: lb). split.
           ++ apply Forall2_mid. exists la, [], lb. split; [reflexivity|]. split; [apply merged_skip_all; [intros u I; apply D1; apply in_app_iff; auto|exact Ha]|].
              split; [apply (Hs c _ eq_refl); rewrite Zc; reflexivity|apply merged_skip_all; [intros u I; apply D1; apply in_app_iff; auto|exact Hb]].
           ++ rewrite !concat_app. cbn [concat app]. f_equal. apply new_ext. intros u Iu. split; intros (x & Ix & E); exists x; (split; [|exact E]).
              ** apply in_app_iff in Ix. apply in_app_iff. destruct Ix; [left|right; right]; assumption.
              ** apply in_app_iff in Ix. apply in_app_iff. destruct Ix as [Ix|[<-|Ix]]; auto. exfalso. apply (Dq u Iu). congruence.
        -- intros (ls & H & ->). apply Forall2_mid in H as (la & y & lb & -> & Ha & M & Hb). apply (Hs c _ eq_refl) in M. rewrite Zc in M. subst y.
           exists (la ++ lb). split.
           ++ apply Forall2_app; [apply merged_skip_all in Ha|apply merged_skip_all in Hb]; auto; intros u I; apply D1; apply in_app_iff; auto.
           ++ rewrite !concat_app. cbn [concat app]. f_equal. apply new_ext. intros u Iu. split; intros (x & Ix & E); exists x; (split; [|exact E]).
              ** apply in_app_iff in Ix. apply in_app_iff. destruct Ix as [Ix|[<-|Ix]]; auto. exfalso. apply (Dq u Iu). congruence.
              ** apply in_app_iff in Ix. apply in_app_iff. destruct Ix; [left|right; right]; assumption.
      * cbn [app]. set (s' := mkterm c (tdeg s) : term).
        assert (T' : tidy (p1 ++ s' :: p2)).
        { split; [rewrite map_app in *; exact NDp|]. apply Forall_app in NZ12 as [A B]. apply Forall_app. split; [exact A|constructor; [exact Zc|exact B]]. }
        rewrite (IH (p1 ++ s' :: p2) r T' Tq').
        assert (New : new_terms (p1 ++ s' :: p2) q = new_terms (p1 ++ s :: p2) q).
        { apply new_ext. intros u Iu. split; intros (x & Ix & E).
          - apply in_app_iff in Ix as [Ix|[<-|Ix]]; [exists x|exists s|exists x]; (split; [apply in_app_iff; cbn; auto|exact E]).
          - apply in_app_iff in Ix as [Ix|[<-|Ix]]; [exists x|exists s'|exists x]; (split; [apply in_app_iff; cbn; auto|exact E]). }
        rewrite New. split.
        -- intros (ls & H & ->). apply Forall2_mid in H as (la & y & lb & -> & Ha & M & Hb). exists (la ++ y :: lb). split; [|reflexivity].
           apply Forall2_mid. exists la, y, lb. split; [reflexivity|]. split; [apply merged_skip_all; [intros u I; apply D1; apply in_app_iff; auto|exact Ha]|].
           split; [|apply merged_skip_all; [intros u I; apply D1; apply in_app_iff; auto|exact Hb]].
           apply (Hs c _ eq_refl). rewrite Zc. destruct M as [[_ ->]|(u & c' & I & Q & _)]; [reflexivity|]. exfalso. apply (Dq u I). cbn in Q. congruence.
        -- intros (ls & H & ->). apply Forall2_mid in H as (la & y & lb & -> & Ha & M & Hb). apply (Hs c _ eq_refl) in M. rewrite Zc in M. subst y.
           exists (la ++ [s'] :: lb). split; [|reflexivity]. apply Forall2_mid. exists la, [s'], lb. split; [reflexivity|].
           split; [apply merged_skip_all in Ha; [exact Ha|intros u I; apply D1; apply in_app_iff; auto]|]. split; [|apply merged_skip_all in Hb; [exact Hb|intros u I; apply D1; apply in_app_iff; auto]].
           left. split; [|reflexivity]. intros u I E. apply (Dq u I). cbn in E. congruence.
    + assert (D1 : forall s, In s p -> tdeg s <> tdeg t).
      { intros s I E. assert (X : existsb (fun s => if list_eq_dec Nat.eq_dec (tdeg s) (tdeg t) then true else false) p = true) by (apply exist_deg; eauto). congruence. }
      rewrite (add_absent p t Nz D1). cbn [bind]. rewrite (IH (p ++ [t]) r (tidy_app_single p t Tp Nz D1) Tq'), new_cons, Ex.
      assert (New : new_terms (p ++ [t]) q = new_terms p q).
      { apply new_ext. intros u Iu. split; intros (x & Ix & E).
        - apply in_app_iff in Ix as [Ix|[<-|[]]]; [exists x; auto|]. exfalso. apply (Dq u Iu). congruence.
        - exists x. split; [apply in_app_iff; auto|exact E]. }
      rewrite New. split.
      * intros (ls & H & ->). apply Forall2_mid in H as (la & y & lb & -> & Ha & M & Hb). inversion Hb; subst. exists la. split; [apply merged_skip_all; assumption|].
        destruct M as [[_ ->]|(u & c' & I & Q & _)]; [|exfalso; apply (Dq u I); exact Q]. rewrite concat_app. cbn. rewrite <- !app_assoc. reflexivity.
      * intros (ls & H & ->). exists (ls ++ [[t]]). split.
        -- apply Forall2_mid. exists ls, [t], []. split; [reflexivity|]. split; [apply merged_skip_all in H; assumption|]. split; [|constructor]. left. split; [exact Dq|reflexivity].
        -- rewrite concat_app. cbn. rewrite <- !app_assoc. reflexivity.
Qed.
End Add.

(** ** division and Groebner bases, over exact fields *)
Section Div.
Context {F : FieldImpl} {K : MathField} (FS : FieldSpec F K) {O : ord_impl} (OS : OrderSpec O).
Add Field Kf59 : (kth K).
Add Ring Pr59 : (@poly_ring K) (setoid (@peq_equiv K) (@poly_ring_ext K)).
Notation term := (term F).
Notation poly := (poly F).
Notation val := (ip FS).
Notation clean := (pwf FS).
Notation lt := (olt OS).
Notation mon t := (canon (tdeg t)).
Notation LM := (is_lm lt).
Let laws := olaws _ OS.

Definition descending (p : poly) : Prop := StronglySorted (fun s t : term => lt (mon t) (mon s)) p.

Lemma desc_snoc p (t : term) : descending p -> (forall s, In s p -> lt (mon t) (mon s)) -> descending (p ++ [t]).
Proof.
  unfold descending. induction p as [|x p IH]; intros D H; [repeat constructor|]. inversion D; subst. cbn. constructor.
  - apply IH; [assumption|]. intros s I. apply H. right. exact I.
  - apply Forall_app. split; [assumption|]. constructor; [apply H; left; reflexivity|constructor].
Qed.
Lemma nonzero_coef (t : term) : twf FS t -> feqb (coef t) f0 = false.
Proof. intros W. assert (X : term_is_zero t = false) by (apply (is_zero_false FS); [apply W|apply W]). exact X. Qed.
Lemma add_below p (t : term) : twf FS t -> (forall s, In s p -> lt (mon t) (mon s)) -> poly_add_term p t = Ok (p ++ [t]).
Proof.
  intros W H. apply add_absent; [apply nonzero_coef; exact W|]. intros s I E. specialize (H s I). rewrite E in H. exact (lt_irrefl lt laws _ H).
Qed.

(** what the loop of divide keeps *)
Record kept (divs : list poly) (f : poly) (quots : list poly) (rem : poly) : Prop := {
  k_f : clean f; k_q : Forall clean quots; k_r : clean rem; k_len : length quots = length divs;
  k_rem : descending rem;
  k_quots : Forall descending quots;
  k_below : forall x m, In x rem -> coeff (val f) m <> k0 -> lt m (mon x);
  k_qbelow : forall i q g l a m, nth_error quots i = Some q -> nth_error divs i = Some g -> LM (val g) l -> In a q -> coeff (val f) m <> k0 -> lt m (mmul (mon a) l) }.

Lemma try_div_append (lt_f : term) : twf FS lt_f -> forall divs quots quots' a g, Forall clean divs -> length quots = length divs ->
  try_divisors O lt_f divs quots = Ok (Some (quots', a, g)) ->
  exists i q q' l, nth_error divs i = Some g /\ nth_error quots i = Some q /\ poly_add_term q a = Ok q' /\ quots' = list_set quots i q' /\
    LM (val g) l /\ mon lt_f = mmul (mon a) l /\ twf FS a.
Proof.
  intros Wt. induction divs as [|h divs IH]; intros [|q quots] quots' a g Wd Len E; try discriminate.
  inversion Wd as [|? ? Wh Wd']; subst. cbn [try_divisors] in E.
  assert (Skip : (r <- try_divisors O lt_f divs quots ;; Ok (match r with None => None | Some (qs, a, g') => Some (q :: qs, a, g') end)) = Ok (Some (quots', a, g)) ->
    exists i q0 q' l, nth_error (h :: divs) i = Some g /\ nth_error (q :: quots) i = Some q0 /\ poly_add_term q0 a = Ok q' /\ quots' = list_set (q :: quots) i q' /\
    LM (val g) l /\ mon lt_f = mmul (mon a) l /\ twf FS a).
  { intros X. apply bind_Ok in X as ([[[qs a'] g']|] & X & Y); [|discriminate]. injection Y as <- <- <-.
    destruct (IH quots qs a' g' Wd' ltac:(cbn in Len; lia) X) as (i & q0 & q' & l & H1 & H2 & H3 & -> & H4). exists (S i), q0, q', l. auto 8. }
  apply bind_Ok in E as (o & El & E). pose proof (leading_term_ok FS OS h Wh) as Hl. rewrite El in Hl. cbn in Hl.
  destruct o as [lh|]; [|apply Skip; exact E]. destruct Hl as (_ & Wlh & Lh & _).
  apply bind_Ok in E as (d & Ed & E). pose proof (term_try_div_ok FS lt_f lh Wt Wlh) as Hd. rewrite Ed in Hd. cbn in Hd.
  destruct d as [b|]; [|apply Skip; exact E]. apply bind_Ok in E as (q' & Eq & E). injection E as <- <- <-. destruct Hd as (Wb & Em & _).
  exists 0, q, q', (mon lh). split; [reflexivity|]. split; [reflexivity|]. split; [exact Eq|]. split; [reflexivity|]. split; [exact Lh|]. split; [rewrite mmul_comm; exact Em|exact Wb].
Qed.

Lemma loop_order divs : Forall clean divs -> forall fuel f quots rem r qs, kept divs f quots rem -> divide_loop Debug O fuel f divs quots rem = Ok (r, qs) ->
  descending r /\ Forall descending qs.
Proof.
  intros Wd. induction fuel as [|fuel IH]; intros f quots rem r qs Kp E.
  { cbn [divide_loop] in E. apply bind_Ok in E as ([t|] & _ & E); [discriminate|]. injection E as <- <-. split; [apply (k_rem _ _ _ _ Kp)|apply (k_quots _ _ _ _ Kp)]. }
  cbn [divide_loop] in E. apply bind_Ok in E as (o & El & E). pose proof (leading_term_ok FS OS f (k_f _ _ _ _ Kp)) as Hl. rewrite El in Hl. cbn in Hl.
  destruct o as [t|]; [|injection E as <- <-; split; [apply (k_rem _ _ _ _ Kp)|apply (k_quots _ _ _ _ Kp)]]. destruct Hl as (It & Wt & Lt & Ct).
  apply bind_Ok in E as (o & Et & E).
  pose proof (try_divisors_ok FS OS t Wt divs quots Wd (k_q _ _ _ _ Kp) (k_len _ _ _ _ Kp)) as Ht. rewrite Et in Ht. cbn in Ht.
  destruct o as [[[quots' a] g]|].
  - clear Ht. pose proof (try_divisors_ok FS OS t Wt divs quots Wd (k_q _ _ _ _ Kp) (k_len _ _ _ _ Kp)) as Ht. rewrite Et in Ht. cbn in Ht.
    destruct Ht as (i0 & _ & _ & l0 & H0 & _ & _ & _ & _ & _ & Ll0 & Em0 & Ed0 & _).
    destruct (try_div_append t Wt divs quots quots' a g Wd (k_len _ _ _ _ Kp) Et) as (i & q & q' & l & Hg & Hq & Ha & -> & Ll & Em & Wa).
    assert (l0 = l) by (eapply (is_lm_unique lt laws); eassumption). subst l0.
    assert (Wg : clean g) by (rewrite Forall_forall in Wd; apply Wd; eapply nth_error_In; exact Hg).
    assert (Wq : clean q) by (pose proof (k_q _ _ _ _ Kp) as X; rewrite Forall_forall in X; apply X; eapply nth_error_In; exact Hq).
    assert (Dq : descending q) by (pose proof (k_quots _ _ _ _ Kp) as X; rewrite Forall_forall in X; apply X; eapply nth_error_In; exact Hq).
    assert (Low : forall s, In s q -> lt (mon a) (mon s)).
    { intros s Is. pose proof (k_qbelow _ _ _ _ Kp i q g l s (mon t) Hq Hg Ll Is (proj1 Lt)) as X. rewrite Em in X.
      rewrite (mmul_comm (mon a)), (mmul_comm (mon s)) in X. apply (lt_mul_inv lt laws) in X. exact X. }
    rewrite (add_below q a Wa Low) in Ha. injection Ha as <-.
    apply bind_Ok in E as (ag & Eag & E). apply bind_Ok in E as (f' & Ef & E).
    destruct (safe_val _ _ _ (term_mul_poly_ok FS a g Wa Wg) Eag) as [Wag Vag].
    destruct (safe_val _ _ _ (poly_sub_ok FS f ag (k_f _ _ _ _ Kp) (Forall_twf0 FS ag (proj1 Wag))) Ef) as [Wf' Vf].
    assert (Dn : forall x, coeff (val f') x <> k0 -> lt x (mon t)).
    { intros x X. rewrite Vf, Vag in X. rewrite Ed0, <- Ct in X. eapply (reduce_lm lt laws (val f) (val g) l (mon a) (mon t)); eassumption. }
    assert (Wq' : clean (q ++ [a])).
    { pose proof (poly_add_term_ok FS q a Wq (twf_twf0 FS a Wa)) as X. rewrite (add_below q a Wa Low) in X. apply X. }
    apply (IH f' (list_set quots i (q ++ [a])) rem r qs); [|exact E]. constructor.
    + exact Wf'.
    + apply Forall_list_set; [apply (k_q _ _ _ _ Kp)|exact Wq'].
    + apply (k_r _ _ _ _ Kp).
    + rewrite list_set_length. apply (k_len _ _ _ _ Kp).
    + apply (k_rem _ _ _ _ Kp).
    + apply Forall_list_set; [apply (k_quots _ _ _ _ Kp)|]. apply desc_snoc; assumption.
    + intros x m Ix X. eapply (lt_trans lt laws); [apply Dn; exact X|]. apply (k_below _ _ _ _ Kp x (mon t) Ix). apply Lt.
    + intros j qj gj lj b m Ej Egj Lj Ib X.
      apply nth_error_set_inv in Ej as [[-> ->]|[Nj Ej]].
      * assert (gj = g) by congruence. subst gj. assert (lj = l) by (eapply (is_lm_unique lt laws); eassumption). subst lj.
        apply in_app_iff in Ib as [Ib|[<-|[]]].
        -- eapply (lt_trans lt laws); [apply Dn; exact X|]. exact (k_qbelow _ _ _ _ Kp i q g l b (mon t) Hq Hg Ll Ib (proj1 Lt)).
        -- rewrite <- Em. apply Dn. exact X.
      * eapply (lt_trans lt laws); [apply Dn; exact X|]. exact (k_qbelow _ _ _ _ Kp j qj gj lj b (mon t) Ej Egj Lj Ib (proj1 Lt)).
  - clear Ht. apply bind_Ok in E as (fs & Es & E). pose proof (sort_ok FS OS f (Forall_twf0 FS f (proj1 (k_f _ _ _ _ Kp)))) as Hs. rewrite Es in Hs. cbn in Hs.
    destruct Hs as (P & S & _). pose proof (vec_pop_spec fs) as V. destruct (vec_pop fs) as [f' [l|]].
    + subst fs.
      assert (Il : In l f) by (apply (Permutation_in _ (Permutation_sym P)); apply in_or_app; right; left; reflexivity).
      assert (Wl : twf FS l) by (exact (pwf_in FS f l (k_f _ _ _ _ Kp) Il)).
      assert (Wp : clean (f' ++ [l])) by (apply (pwf_perm FS f); [assumption|apply (k_f _ _ _ _ Kp)]).
      assert (Wf' : clean f').
      { destruct Wp as [A N]. apply Forall_app in A as [A _]. split; [exact A|]. rewrite map_app in N.
        clear - N. induction (map tdeg f') as [|x xs IH]; [constructor|]. simpl in N. inversion N; subst. constructor; auto.
        intros I. apply H1. apply in_or_app. left. exact I. }
      assert (Fl : coeff (val f) (mon l) <> k0) by (apply (pwf_support FS f _ (k_f _ _ _ _ Kp)); eauto).
      assert (Low : forall s, In s rem -> lt (mon l) (mon s)) by (intros s Is; apply (k_below _ _ _ _ Kp s (mon l) Is Fl)).
      assert (Sub : forall m, coeff (val f') m <> k0 -> coeff (val f) m <> k0 /\ lt m (mon l)).
      { intros m X. apply (pwf_support FS f' m Wf') in X as (s & Is & <-).
        assert (Is' : In s f) by (apply (Permutation_in _ (Permutation_sym P)); apply in_or_app; left; exact Is).
        split; [apply (pwf_support FS f _ (k_f _ _ _ _ Kp)); eauto|].
        assert (M : mle lt (mon s) (mon l)).
        { clear - S Is. induction f' as [|y f' IH]; [contradiction|]. simpl in S. inversion S as [|? ? S' M]; subst.
          destruct Is as [->|Is]; [|auto]. rewrite Forall_forall in M. apply M. apply in_or_app. right. left. reflexivity. }
        destruct M as [M|M]; [|exact M]. exfalso. destruct Wp as [A N]. rewrite map_app in N. cbn [map] in N. apply NoDup_remove_2 in N. apply N. rewrite app_nil_r.
        apply in_map_iff. exists s. split; [|exact Is]. rewrite Forall_forall in A. apply canon_inj; [apply (A s); apply in_or_app; auto|apply Wl|exact M]. }
      apply bind_Ok in E as (rem' & Er & E). rewrite (add_below rem l Wl Low) in Er. injection Er as <-.
      apply (IH f' quots (rem ++ [l]) r qs); [|exact E]. constructor.
      * exact Wf'.
      * apply (k_q _ _ _ _ Kp).
      * pose proof (poly_add_term_ok FS rem l (k_r _ _ _ _ Kp) (twf_twf0 FS l Wl)) as X. rewrite (add_below rem l Wl Low) in X. apply X.
      * apply (k_len _ _ _ _ Kp).
      * apply desc_snoc; [apply (k_rem _ _ _ _ Kp)|exact Low].
      * apply (k_quots _ _ _ _ Kp).
      * intros x m Ix X. destruct (Sub m X) as [X1 X2]. apply in_app_iff in Ix as [Ix|[<-|[]]]; [apply (k_below _ _ _ _ Kp x m Ix X1)|exact X2].
      * intros j qj gj lj b m Ej Egj Lj Ib X. destruct (Sub m X) as [X1 X2]. exact (k_qbelow _ _ _ _ Kp j qj gj lj b m Ej Egj Lj Ib X1).
    + destruct V as [-> ->]. apply Permutation_sym in P. apply Permutation_nil in P. subst f. contradiction.
Qed.

Theorem C131_divide : forall fuel (f : poly) divs r qs, clean f -> Forall clean divs -> divide Debug O fuel f divs = Ok (r, qs) ->
  descending r /\ Forall descending qs.
Proof.
  intros fuel f divs r qs W Wd E. apply (loop_order divs Wd fuel f (repeat poly_zero (length divs)) poly_zero r qs); [|exact E].
  assert (Z : Forall (fun q : poly => q = []) (repeat poly_zero (length divs))) by (apply Forall_forall; intros x I; apply repeat_spec in I; exact I).
  constructor.
  - exact W.
  - eapply Forall_impl; [|exact Z]. intros q ->. apply pwf_nil.
  - apply pwf_nil.
  - apply repeat_length.
  - constructor.
  - eapply Forall_impl; [|exact Z]. intros q ->. constructor.
  - intros x m [].
  - intros i q g l a m Eq _ _ Ia. rewrite Forall_forall in Z. rewrite (Z q (nth_error_In _ _ Eq)) in Ia. destruct Ia.
Qed.

(** the same term up to the representation of the coefficient *)
Definition same_term (s t : term) : Prop := tdeg s = tdeg t /\ den FS (coef s) = den FS (coef t).

Lemma descending_unique (p q : poly) : clean p -> clean q -> descending p -> descending q -> peq (val p) (val q) -> Forall2 same_term p q.
Proof.
  revert q. induction p as [|s p IH]; intros q Wp Wq Dp Dq E.
  - assert (q = []) by (apply (pwf_zero_iff FS q Wq); rewrite <- E; reflexivity). subst q. constructor.
  - destruct q as [|t q]; [exfalso; assert (X : s :: p = []) by (apply (pwf_zero_iff FS _ Wp); rewrite E; reflexivity); discriminate|].
    assert (L1 : forall (x : term) l, clean (x :: l) -> descending (x :: l) -> LM (val (x :: l)) (mon x)).
    { intros x l W D. apply pwf_lm; [exact W|left; reflexivity|]. intros y [<-|I]; [left; reflexivity|]. right. inversion D as [|? ? _ H]; subst. rewrite Forall_forall in H. apply H. exact I. }
    assert (M : mon s = mon t) by (apply (is_lm_unique lt laws (val (s :: p))); [apply L1; assumption|]; rewrite E; apply L1; assumption).
    assert (Ws : twf FS s) by (apply (pwf_in FS _ s Wp); left; reflexivity). assert (Wt : twf FS t) by (apply (pwf_in FS _ t Wq); left; reflexivity).
    assert (C : den FS (coef s) = den FS (coef t)).
    { rewrite <- (pwf_coeff FS _ s Wp (or_introl eq_refl)), <- (pwf_coeff FS _ t Wq (or_introl eq_refl)), E, M. reflexivity. }
    assert (T : forall (x : term) l, clean (x :: l) -> clean l) by (intros x l [A N]; inversion A; inversion N; subst; split; assumption).
    constructor; [split; [apply canon_inj; [apply Ws|apply Wt|exact M]|exact C]|].
    apply IH; [eapply T; eassumption|eapply T; eassumption|inversion Dp; assumption|inversion Dq; assumption|].
    rewrite !ip_cons in E. unfold PolyProofs.it in E. rewrite M, C in E.
    transitivity (psub (padd (pterm (den FS (coef t)) (mon t)) (val p)) (pterm (den FS (coef t)) (mon t))); [ring|]. rewrite E. ring.
Qed.

(** the stored result does not depend on how the arguments are stored *)
Theorem C131_divide_storage : forall fuel fuel' (f f' : poly) divs divs' r qs r' qs', clean f -> Forall clean divs ->
  Permutation f f' -> Forall2 (fun g g' => Permutation g g') divs divs' ->
  divide Debug O fuel f divs = Ok (r, qs) -> divide Debug O fuel' f' divs' = Ok (r', qs') ->
  Forall2 same_term r r' /\ Forall2 (Forall2 same_term) qs qs'.
Proof.
  intros fuel fuel' f f' divs divs' r qs r' qs' W Wd P Pd E E'.
  assert (W' : clean f') by (eapply pwf_perm; eassumption).
  assert (Wd' : Forall clean divs').
  { clear - Wd Pd. induction Pd as [|g g' l l' H _ IH]; [constructor|]. inversion Wd; subst. constructor; [eapply pwf_perm; eassumption|auto]. }
  destruct (C67_storage_order FS OS fuel fuel' f f' divs divs' r qs r' qs' W Wd P Pd E E') as [Er Eq].
  destruct (C32_division_identity FS OS fuel f divs r qs W Wd E) as (_ & Wr & Wq & _).
  destruct (C32_division_identity FS OS fuel' f' divs' r' qs' W' Wd' E') as (_ & Wr' & Wq' & _).
  destruct (C131_divide fuel f divs r qs W Wd E) as [Dr Dq]. destruct (C131_divide fuel' f' divs' r' qs' W' Wd' E') as [Dr' Dq'].
  split; [apply descending_unique; assumption|].
  clear - laws Eq Wq Wq' Dq Dq'. induction Eq as [|q q' l l' H _ IH]; [constructor|]. inversion Wq; inversion Wq'; inversion Dq; inversion Dq'; subst.
  constructor; [apply descending_unique; assumption|auto].
Qed.

Lemma scale_descending (p r : poly) c : clean p -> descending p -> fwf FS c -> den FS c <> k0 -> poly_div_scalar Debug p c = Ok r -> descending r.
Proof.
  intros W D Wc Nc E. unfold poly_div_scalar in E. apply bind_Ok in E as (i & Ei & E).
  destruct (safe_val _ _ _ (inv_ok _ _ FS c Wc Nc) Ei) as [Wi Di].
  assert (Ni : den FS i <> k0).
  { rewrite Di. intros Z. apply (k1_neq_0 (K := K)). transitivity (kmul (den FS c) (kinv (den FS c))); [field; exact Nc|]. rewrite Z. ring. }
  assert (Wt : twf FS (term_constant i)) by (split; [exact Wi|split; [exact Ni|apply mwf_nil]]).
  unfold poly_scale, poly_mul_term in E. destruct (term_is_zero (term_constant i) || poly_is_zero p); [injection E as <-; constructor|].
  destruct W as [W _]. revert r E. induction p as [|s p IH]; intros r E; cbn [mapM] in E; [injection E as <-; constructor|].
  apply bind_Ok in E as (s' & Es & E). apply bind_Ok in E as (r' & Er & E). injection E as <-. inversion D as [|? ? D1 D2]; subst. inversion W as [|? ? W1 W2]; subst.
  constructor; [apply IH; assumption|].
  assert (M : forall u u', twf FS u -> term_mul Debug u (term_constant i) = Ok u' -> mon u' = mon u).
  { intros u u' Wu X. destruct (safe_val _ _ _ (term_mul_ok FS u (term_constant i) (twf_twf0 FS u Wu) (twf_twf0 FS _ Wt)) X) as (_ & _ & Y).
    destruct (Y Wu Wt) as [_ ->]. apply mmul_1_r. }
  rewrite (M s s' W1 Es). clear - D2 Er W2 M. revert r' Er. induction p as [|u p IH]; intros r' Er; cbn [mapM] in Er; [injection Er as <-; constructor|].
  apply bind_Ok in Er as (u' & Eu & Er). apply bind_Ok in Er as (r2 & Er2 & Er). injection Er as <-. inversion D2; subst. inversion W2; subst.
  constructor; [rewrite (M u u'); assumption|apply IH; assumption].
Qed.

Definition stored (gens0 : list poly) (g : poly) : Prop := clean g /\ (In g gens0 \/ descending g).
Lemma stored_clean gens0 gens : Forall (stored gens0) gens -> Forall clean gens.
Proof. apply Forall_impl. intros g [W _]. exact W. Qed.
Lemma extend_inner_order gens0 d gens i js r : Forall (stored gens0) gens -> extend_inner Debug O d gens i js = Ok (Some r) -> stored gens0 r.
Proof.
  intros S. pose proof (stored_clean _ _ S) as W. induction js as [|j js IH]; intros E; [discriminate|]. cbn [extend_inner] in E.
  apply bind_Ok in E as (gi & Ei & E). apply bind_Ok in E as (gj & Ej & E). apply bind_Ok in E as (o & Eo & E). apply bind_Ok in E as (s & Eu & E).
  destruct o as [s'|]; [|discriminate]. injection Eu as ->.
  assert (G : forall k x, vget gens k = Ok x -> clean x).
  { intros k x X. unfold vget in X. destruct (nth_error gens k) eqn:N; [|discriminate]. injection X as <-. rewrite Forall_forall in W. apply W. eapply nth_error_In; exact N. }
  pose proof (try_reduce_ok FS OS gi gj (G _ _ Ei) (G _ _ Ej)) as H. rewrite Eo in H. destruct H as (Ws & _).
  apply bind_Ok in E as ([r0 qs] & Ed & E). destruct (C32_division_identity FS OS d s gens r0 qs Ws W Ed) as (_ & Wr & _).
  destruct (C131_divide d s gens r0 qs Ws W Ed) as [Dr _].
  apply bind_Ok in E as (oc & Ec & E). pose proof (leading_coef_ok FS OS r0 Wr) as Hc. rewrite Ec in Hc. cbn in Hc. destruct oc as [c|]; [|apply IH; exact E].
  destruct Hc as (l & _ & Dc & Wc & Nc). apply bind_Ok in E as (r1 & E1 & E). injection E as <-. rewrite <- Dc in Nc.
  split; [|right; eapply scale_descending; eassumption].
  apply (safe_val _ _ _ (poly_div_scalar_ok FS r0 c (Forall_twf0 FS r0 (proj1 Wr)) Wc Nc) E1). exact Wr.
Qed.
Lemma extend_order gens0 d fuel : forall gens i out, Forall (stored gens0) gens -> extend_loop Debug O d fuel gens i = Ok out -> Forall (stored gens0) out.
Proof.
  induction fuel as [|fuel IH]; intros gens i out S E; cbn [extend_loop] in E; destruct (i <? length gens); try discriminate; try (injection E as <-; exact S).
  apply bind_Ok in E as ([r|] & Er & E); [|eapply IH; eassumption]. eapply IH; [|exact E]. apply Forall_app. split; [exact S|]. constructor; [|constructor].
  eapply extend_inner_order; eassumption.
Qed.
Lemma Forall_remove {A} (P : A -> Prop) (l : list A) i : Forall P l -> Forall P (list_remove l i).
Proof. intros H. rewrite Forall_forall in *. intros x I. apply H. eapply list_remove_incl; exact I. Qed.
Lemma minimize_order (P : poly -> Prop) fuel : forall gens out, Forall P gens -> minimize_loop O fuel gens = Ok out -> Forall P out.
Proof.
  induction fuel as [|fuel IH]; intros gens out S E; [discriminate|]. cbn [minimize_loop] in E.
  apply bind_Ok in E as ([i|] & _ & E); [|injection E as <-; exact S]. eapply IH; [|exact E]. apply Forall_remove. exact S.
Qed.
Lemma reduce_order gens0 d fuel : forall gens out, Forall (stored gens0) gens -> reduce_loop Debug O d fuel gens = Ok out -> Forall (stored gens0) out.
Proof.
  induction fuel as [|fuel IH]; intros gens out S E; [discriminate|]. cbn [reduce_loop] in E.
  apply bind_Ok in E as ([i|] & _ & E); [|injection E as <-; exact S].
  apply bind_Ok in E as (g & Eg & E). apply bind_Ok in E as ([r qs] & Ed & E). pose proof (Forall_remove _ _ i S) as S'. pose proof (stored_clean _ _ S') as W.
  assert (Wg : clean g).
  { unfold vget in Eg. destruct (nth_error gens i) eqn:N; [|discriminate]. injection Eg as <-. rewrite Forall_forall in S. apply (S p). eapply nth_error_In; exact N. }
  eapply IH; [|exact E]. apply Forall_app. split; [exact S'|]. constructor; [|constructor]. split.
  - destruct (C32_division_identity FS OS d g _ r qs Wg W Ed) as (_ & Wr & _). exact Wr.
  - right. apply (C131_divide d g _ r qs Wg W Ed).
Qed.

Theorem C131_algorithm : forall fuel (gens out : list poly), Forall clean gens -> buchberger_algorithm Debug O fuel gens = Ok out ->
  Forall (fun g => In g gens \/ descending g) out.
Proof.
  intros fuel gens out W E. unfold buchberger_algorithm, buchberger_extend, buchberger_minimize, buchberger_reduce in E.
  apply bind_Ok in E as (g1 & E1 & E). apply bind_Ok in E as (g2 & E2 & E3).
  assert (S0 : Forall (stored gens) gens) by (apply Forall_forall; intros g I; split; [rewrite Forall_forall in W; apply W; exact I|left; exact I]).
  pose proof (extend_order gens _ _ _ _ _ S0 E1) as S1. pose proof (minimize_order _ _ _ _ S1 E2) as S2. pose proof (reduce_order _ _ _ _ _ S2 E3) as S3.
  eapply Forall_impl; [|exact S3]. intros g [_ H]. exact H.
Qed.
(** so if the generators are stored in decreasing order, the whole basis is *)
Theorem C131_algorithm_descending : forall fuel (gens out : list poly), Forall clean gens -> Forall descending gens ->
  buchberger_algorithm Debug O fuel gens = Ok out -> Forall descending out.
Proof.
  intros fuel gens out W D E. eapply Forall_impl; [|apply (C131_algorithm fuel gens out W E)]. intros g [I|H]; [|exact H]. rewrite Forall_forall in D. apply D. exact I.
Qed.
End Div.

(** ** concrete cases *)
Definition to_p : poly (rat_impl Debug) := [ex_t 1 1 [0; 1]; ex_t 2 1 [1]; ex_t 3 1 []].
Definition to_q : poly (rat_impl Debug) := [ex_t 5 1 [0; 0; 1]; ex_t (-2) 1 [1]; ex_t 1 1 [0; 1]].
Example C131_ex_add : tidy to_p /\ tidy to_q /\ poly_add to_p to_q = Ok [ex_t 2 1 [0; 1]; ex_t 3 1 []; ex_t 5 1 [0; 0; 1]].
Proof.
  split; [|split; [|reflexivity]]; split.
  1, 3: cbn; repeat constructor; cbn; intros H; repeat (destruct H as [H|H]; [discriminate|]); exact H.
  all: repeat (constructor; [reflexivity|]); constructor.
Qed.
Definition to_f : poly (rat_impl Debug) := [ex_t 1 1 [0; 1]; ex_t 1 1 [2; 1]; ex_t 1 1 []; ex_t 1 1 [1; 2]; ex_t 1 1 [1]].
Definition to_d : list (poly (rat_impl Debug)) := [[ex_t (-1) 1 []; ex_t 1 1 [1; 1]]; [ex_t (-1) 1 []; ex_t 1 1 [0; 2]]].
Lemma to_clean : pwf rat_spec to_f /\ Forall (pwf rat_spec) to_d.
Proof.
  split; [|constructor; [|constructor; [|constructor]]]; apply ex_clean; reflexivity.
Qed.
Example C131_ex_divide : pwf rat_spec to_f /\ Forall (pwf rat_spec) to_d /\
  divide Debug lex_cmp 50 to_f to_d = Ok ([ex_t 2 1 [1]; ex_t 2 1 [0; 1]; ex_t 1 1 []], [[ex_t 1 1 [1]; ex_t 1 1 [0; 1]]; []]).
Proof. split; [apply to_clean|]. split; [apply to_clean|reflexivity]. Qed.
(** the generators keep their order, the polynomial that was added is decreasing; so a basis need not be in decreasing order *)
Definition to_g : list (poly (rat_impl Debug)) := [[ex_t (-1) 1 []; ex_t 1 1 [1; 1]]; [ex_t (-1) 1 [1]; ex_t 1 1 [0; 2]]].
Example C131_ex_algorithm : Forall (pwf rat_spec) to_g /\
  buchberger_algorithm Debug (grlex_cmp Debug) 50 to_g =
    Ok [[ex_t (-1) 1 []; ex_t 1 1 [1; 1]]; [ex_t (-1) 1 [1]; ex_t 1 1 [0; 2]]; [ex_t 1 1 [2]; ex_t (-1) 1 [0; 1]]].
Proof. split; [constructor; [|constructor; [|constructor]]; apply ex_clean; reflexivity|reflexivity]. Qed.

Print Assumptions C131_add.
Print Assumptions C131_divide.
Print Assumptions C131_divide_storage.
Print Assumptions C131_algorithm.
Print Assumptions C131_algorithm_descending.
