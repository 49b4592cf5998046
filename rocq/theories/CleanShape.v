(** * Coefficients of sums and products over an arbitrary coefficient type. *)
From Verif Require Import Base BaseLemmas FieldIface MDegModel PolyModel MonoSpec MDegProofs.
From Coq Require Import Lia.
Local Open Scope nat_scope.

Section Any.
Context {F : FieldImpl}.
Notation term := (term F).
Notation poly := (poly F).

(** the coefficient stored with degree vector [d] *)
Fixpoint coef_at (p : poly) (d : list nat) : option F :=
  match p with
  | [] => None
  | t :: p' => if list_eq_dec Nat.eq_dec (tdeg t) d then Some (coef t) else coef_at p' d
  end.
Definition distinct (p : poly) : Prop := NoDup (map tdeg p).
Definition nonzero (p : poly) : Prop := Forall (fun t => feqb (coef t) f0 = false) p.

Lemma coef_at_app p q d : coef_at (p ++ q) d = match coef_at p d with Some c => Some c | None => coef_at q d end.
Proof. induction p as [|t p IH]; [reflexivity|]. cbn [app coef_at]. destruct (list_eq_dec _ _ _); [reflexivity|exact IH]. Qed.
Lemma coef_at_None p d : coef_at p d = None <-> ~ In d (map tdeg p).
Proof.
  induction p as [|t p IH]; cbn [coef_at map In]; [tauto|]. destruct (list_eq_dec _ _ _) as [E|E].
  - split; [discriminate|]. intros H. contradiction H. left. exact E.
  - rewrite IH. tauto.
Qed.
Lemma coef_at_Some p d c : coef_at p d = Some c -> exists t, In t p /\ tdeg t = d /\ coef t = c.
Proof.
  induction p as [|t p IH]; cbn [coef_at]; [discriminate|]. destruct (list_eq_dec _ _ _) as [E|E].
  - intros H. injection H as <-. exists t. simpl. auto.
  - intros H. destruct (IH H) as (s & I & H'). exists s. simpl. auto.
Qed.
Lemma coef_at_In p t : distinct p -> In t p -> coef_at p (tdeg t) = Some (coef t).
Proof.
  unfold distinct. induction p as [|s p IH]; intros N I; [contradiction|]. cbn [map] in N. inversion N as [|? ? N1 N2]; subst.
  cbn [coef_at]. destruct (list_eq_dec _ _ _) as [E|E].
  - destruct I as [->|I]; [reflexivity|]. exfalso. apply N1. rewrite E. apply in_map. exact I.
  - destruct I as [->|I]; [congruence|]. apply IH; assumption.
Qed.

(** the coefficient of a sum: at most one addition *)
Definition sum_at (a b c : option F) : Prop :=
  match b with
  | None => c = a
  | Some y => if feqb y f0 then c = a else
      match a with
      | None => c = Some y
      | Some x => exists z, fadd x y = Ok z /\ c = if feqb z f0 then None else Some z
      end
  end.
Lemma add_term_at p t r : poly_add_term p t = Ok r -> distinct p ->
  distinct r /\ (nonzero p -> nonzero r) /\
  forall d, sum_at (coef_at p d) (if list_eq_dec Nat.eq_dec (tdeg t) d then Some (coef t) else None) (coef_at r d).
Proof.
  intros E N. unfold poly_add_term in E. destruct (poly_is_zero p) eqn:Z.
  - destruct p; [|discriminate]. injection E as <-. unfold poly_from_term. destruct (term_is_zero t) eqn:Zt; unfold term_is_zero in Zt.
    + split; [exact N|]. split; [auto|]. intros d. destruct (list_eq_dec _ _ _) as [Ed|Ed]; unfold sum_at; [rewrite Zt|]; reflexivity.
    + split; [constructor; [intros []|constructor]|]. split; [intros _; constructor; [exact Zt|constructor]|].
      intros d. cbn [coef_at poly_term]. unfold poly_term. cbn [coef_at]. destruct (list_eq_dec _ _ _) as [Ed|Ed]; unfold sum_at; [rewrite Zt|]; reflexivity.
  - destruct (term_is_zero t) eqn:Zt; unfold term_is_zero in Zt.
    + injection E as <-. split; [exact N|]. split; [auto|]. intros d. destruct (list_eq_dec _ _ _) as [Ed|Ed]; unfold sum_at; [rewrite Zt|]; reflexivity.
    + destruct (position _ p) as [i|] eqn:P.
      * destruct (position_Some _ _ _ P) as (l1 & x & l2 & -> & <- & Ex & _).
        apply bind_Ok in E as (ti & E & H). apply bind_Ok in H as (c & Ec & H).
        unfold vget in E. assert (V : nth_error (l1 ++ x :: l2) (length l1) = Some x).
        { rewrite nth_error_app2, Nat.sub_diag by lia. reflexivity. }
        rewrite V in E. injection E as <-.
        assert (Rm : list_remove (l1 ++ x :: l2) (length l1) = l1 ++ l2).
        { clear. induction l1; simpl; [reflexivity|]. f_equal. exact IHl1. }
        assert (St : forall y, list_set (l1 ++ x :: l2) (length l1) y = l1 ++ y :: l2).
        { clear. induction l1; intros y; simpl; [reflexivity|]. f_equal. apply IHl1. }
        apply mdeg_eqb_eq in Ex. unfold distinct in N. rewrite map_app in N. cbn [map] in N.
        assert (A1 : coef_at l1 (tdeg x) = None).
        { apply coef_at_None. intros I. apply NoDup_remove_2 in N. apply N. apply in_or_app. auto. }
        assert (A2 : coef_at l2 (tdeg x) = None).
        { apply coef_at_None. intros I. apply NoDup_remove_2 in N. apply N. apply in_or_app. auto. }
        assert (Ax : coef_at (l1 ++ x :: l2) (tdeg x) = Some (coef x)).
        { rewrite coef_at_app, A1. cbn [coef_at]. destruct (list_eq_dec _ _ _); congruence. }
        unfold term_is_zero in H. cbn [coef] in H. destruct (feqb c f0) eqn:Zc; injection H as <-; [rewrite Rm|rewrite St].
        -- split; [unfold distinct; rewrite map_app; eapply NoDup_remove_1; exact N|]. split.
           { unfold nonzero. rewrite !Forall_app. intros [W1 W2]. inversion W2; subst. auto. }
           intros d. destruct (list_eq_dec _ _ _) as [<-|Ed]; unfold sum_at.
           ++ rewrite Zt, <- Ex, Ax. exists c. split; [exact Ec|]. rewrite Zc, coef_at_app, A1. exact A2.
           ++ rewrite !coef_at_app. cbn [coef_at]. destruct (list_eq_dec _ _ _); [congruence|reflexivity].
        -- split; [unfold distinct; rewrite map_app; exact N|]. split.
           { unfold nonzero. rewrite !Forall_app. intros [W1 W2]. inversion W2; subst. split; [exact W1|]. constructor; assumption. }
           intros d. destruct (list_eq_dec _ _ _) as [<-|Ed]; unfold sum_at.
           ++ rewrite Zt, <- Ex, Ax. exists c. split; [exact Ec|]. rewrite Zc, coef_at_app, A1. cbn [coef_at tdeg]. destruct (list_eq_dec _ _ _); [reflexivity|congruence].
           ++ rewrite !coef_at_app. cbn [coef_at tdeg]. destruct (list_eq_dec _ _ _); [congruence|reflexivity].
      * injection E as <-. pose proof (proj1 (position_None _ _) P) as Nn.
        assert (Nd : ~ In (tdeg t) (map tdeg p)).
        { intros I. apply in_map_iff in I as (s & Es & Is). rewrite Forall_forall in Nn. specialize (Nn s Is). cbv beta in Nn.
          rewrite (proj2 (mdeg_eqb_eq _ _) Es) in Nn. discriminate. }
        split; [unfold distinct; rewrite map_app; apply nodup_snoc; assumption|]. split.
        { unfold nonzero. intros W. apply Forall_app. split; [exact W|]. constructor; [exact Zt|constructor]. }
        intros d. rewrite coef_at_app. cbn [coef_at]. destruct (list_eq_dec _ _ _) as [<-|Ed]; unfold sum_at.
        -- rewrite Zt, (proj2 (coef_at_None _ _) Nd). reflexivity.
        -- destruct (coef_at p d); reflexivity.
Qed.
Lemma poly_add_at q : forall p r, poly_add p q = Ok r -> distinct p -> distinct q ->
  distinct r /\ (nonzero p -> nonzero r) /\ forall d, sum_at (coef_at p d) (coef_at q d) (coef_at r d).
Proof.
  unfold poly_add. induction q as [|t q IH]; intros p r E Np Nq; cbn [foldM] in E.
  - injection E as <-. split; [exact Np|]. split; [auto|]. intros d. reflexivity.
  - apply bind_Ok in E as (p' & E1 & E). destruct (add_term_at _ _ _ E1 Np) as (N' & W' & A').
    unfold distinct in Nq. cbn [map] in Nq. inversion Nq as [|? ? N1 N2]; subst.
    destruct (IH _ _ E N' N2) as (Nr & Wr & Ar). split; [exact Nr|]. split; [auto|].
    intros d. specialize (A' d). specialize (Ar d). cbn [coef_at]. destruct (list_eq_dec _ _ _) as [<-|Ed].
    + rewrite (proj2 (coef_at_None _ _) N1) in Ar. cbn [sum_at] in Ar. rewrite Ar. exact A'.
    + cbn [sum_at] in A'. rewrite <- A'. exact Ar.
Qed.
Lemma poly_neg_at p : forall r, poly_neg p = Ok r -> map tdeg r = map tdeg p /\
  forall d, match coef_at p d with None => coef_at r d = None | Some x => exists y, fneg x = Ok y /\ coef_at r d = Some y end.
Proof.
  induction p as [|t p IH]; intros r; unfold poly_neg; cbn [mapM].
  - intros H. injection H as <-. split; [reflexivity|]. intros d. reflexivity.
  - intros H. apply bind_Ok in H as (t' & E & H). apply bind_Ok in H as (r' & E' & H). injection H as <-.
    unfold term_neg in E. apply bind_Ok in E as (c & Ec & E). injection E as <-. destruct (IH _ E') as [D A].
    split; [cbn [map tdeg]; rewrite D; reflexivity|]. intros d. cbn [coef_at tdeg coef]. destruct (list_eq_dec _ _ _); [eauto|apply A].
Qed.
(** products with a term: the coefficients are single products *)
Lemma mul_term_at p t : forall r, feqb (coef t) f0 = false -> nonzero p -> distinct p -> Forall (fun s => mwf (tdeg s)) p -> mwf (tdeg t) ->
  mapM (fun s => term_mul Debug s t) p = Ok r ->
  distinct r /\ Forall (fun s => mwf (tdeg s)) r /\ length r = length p /\
  (forall s, In s p -> exists d c, mdeg_add Debug (tdeg s) (tdeg t) = Ok d /\ mwf d /\ canon d = mmul (canon (tdeg s)) (canon (tdeg t)) /\
      fmul (coef s) (coef t) = Ok c /\ coef_at r d = Some c) /\
  (forall d c, coef_at r d = Some c -> exists s, In s p /\ canon d = mmul (canon (tdeg s)) (canon (tdeg t)) /\ fmul (coef s) (coef t) = Ok c).
Proof.
  induction p as [|s p IH]; intros r Zt Wp Np Mp Mt E; cbn [mapM] in E.
  - injection E as <-. repeat split; try constructor; try (intros ? []); discriminate.
  - apply bind_Ok in E as (s' & Es & E). apply bind_Ok in E as (r' & Er & E). injection E as <-.
    unfold distinct in Np. cbn [map] in Np. inversion Np as [|? ? N1 N2]; subst. inversion Wp as [|? ? W1 W2]; subst. inversion Mp as [|? ? M1 M2]; subst.
    destruct (IH _ Zt W2 N2 M2 Mt Er) as (Nr & Mr & Lr & A & B).
    unfold term_mul in Es. unfold term_is_zero in Es. rewrite W1, Zt in Es. cbn [orb] in Es.
    apply bind_Ok in Es as (c & Ec & Es). apply bind_Ok in Es as (d & Ed & Es). injection Es as <-.
    pose proof (mdeg_add_safe (tdeg s) (tdeg t) (proj2 M1) (proj2 Mt)) as S. rewrite Ed in S. cbn [safe] in S. destruct S as [Md Cd].
    assert (Nd : ~ In d (map tdeg r')).
    { intros I. destruct (coef_at r' d) as [c'|] eqn:Ca; [|apply coef_at_None in Ca; contradiction].
      destruct (B _ _ Ca) as (s2 & I2 & E2 & _). rewrite Cd in E2.
      assert (Eq : canon (tdeg s) = canon (tdeg s2)).
      { apply mono_ext. intros i. pose proof (f_equal (fun x => mexp x i) E2) as X. cbv beta in X. rewrite !mmul_exp in X. lia. }
      rewrite Forall_forall in M2. apply canon_inj in Eq; [|apply M1|apply (M2 s2 I2)]. apply N1. rewrite Eq. apply in_map. exact I2. }
    split; [unfold distinct; cbn [map tdeg]; constructor; assumption|]. split; [constructor; assumption|]. split; [cbn [length]; congruence|]. split.
    + intros s2 [<-|I2].
      * exists d, c. repeat split; try assumption; try apply Md. cbn [coef_at tdeg coef]. destruct (list_eq_dec _ _ _); congruence.
      * destruct (A s2 I2) as (d2 & c2 & H1 & H2 & H3 & H4 & H5). exists d2, c2. split; [exact H1|]. split; [exact H2|]. split; [exact H3|]. split; [exact H4|].
        cbn [coef_at tdeg coef]. destruct (list_eq_dec _ _ _) as [<-|_]; [|exact H5]. exfalso. apply Nd. destruct (coef_at_Some _ _ _ H5) as (x & Ix & <- & _). apply in_map. exact Ix.
    + intros d2 c2. cbn [coef_at tdeg coef]. destruct (list_eq_dec _ _ _) as [<-|_].
      * intros H. injection H as <-. exists s. simpl. auto.
      * intros H. destruct (B _ _ H) as (s2 & I2 & H2). exists s2. simpl. auto.
Qed.
End Any.
