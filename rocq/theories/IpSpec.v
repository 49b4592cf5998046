(** * Linear systems in natural numbers as congruences of monomials *)
From Coq Require Import List Arith Lia.
From Verif Require Import MonoSpec IdealSpec WordSpec.
Import ListNotations.
Local Open Scope nat_scope.

Fixpoint nsum (f : nat -> nat) (l : list nat) : nat := match l with [] => 0 | j :: l' => f j + nsum f l' end.

Section Ip.
(** [p] equations; the columns of the system as monomials in the first [p] variables *)
Context (p : nat) (cols : list mono).
Notation q := (length cols).
(** entry [i] of column [j] *)
Definition column_entry (i j : nat) : nat := mexp (nth j cols mone) i.
(** what the unknowns, the exponents from [p] on, contribute to equation [i] *)
Definition contribution (m : mono) (i : nat) : nat := nsum (fun j => mexp m (p + j) * column_entry i j) (seq 0 q).
Definition total (m : mono) (i : nat) : nat := mexp m i + contribution m i.
(** y_j = x^(column j) *)
Definition column_relations : list (mono * mono) := map (fun j => (mvar (p + j) 1, nth j cols mone)) (seq 0 q).
Hypothesis VC : Forall (mvars p) cols.

Lemma nsum_add (f g : nat -> nat) l : nsum (fun j => f j + g j) l = nsum f l + nsum g l.
Proof. induction l as [|x l IH]; cbn; lia. Qed.
Lemma nsum_zero (f : nat -> nat) l : (forall j, In j l -> f j = 0) -> nsum f l = 0.
Proof. induction l as [|x l IH]; cbn; intros H; [reflexivity|]. rewrite (H x), IH; auto. Qed.
Lemma nsum_ext (f g : nat -> nat) l : (forall j, In j l -> f j = g j) -> nsum f l = nsum g l.
Proof. induction l as [|x l IH]; cbn; intros H; [reflexivity|]. rewrite (H x), IH; auto. Qed.
Lemma nsum_one (f : nat -> nat) l k : NoDup l -> In k l -> (forall j, In j l -> j <> k -> f j = 0) -> nsum f l = f k.
Proof.
  induction l as [|x l IH]; intros ND I H; [destruct I|]. inversion ND as [|? ? NI ND']; subst. cbn. destruct I as [->|I].
  - rewrite (nsum_zero f l); [lia|]. intros j Ij. apply H; [right; exact Ij|]. intros ->. contradiction.
  - rewrite (H x (or_introl eq_refl)) by (intros ->; contradiction). cbn. apply IH; auto. intros j Ij. apply H. right. exact Ij.
Qed.
Lemma col_vars j : mvars p (nth j cols mone).
Proof.
  destruct (le_lt_dec q j) as [H|H]; [rewrite nth_overflow by exact H; intros i _; apply mone_exp|].
  rewrite Forall_forall in VC. apply VC. apply nth_In. exact H.
Qed.
Lemma total_mul a b i : total (mmul a b) i = total a i + total b i.
Proof.
  unfold total, contribution. rewrite mmul_exp. rewrite (nsum_ext _ (fun j => mexp a (p + j) * column_entry i j + mexp b (p + j) * column_entry i j)) by (intros j _; rewrite mmul_exp; lia).
  rewrite nsum_add. lia.
Qed.
Lemma total_vars a i : mvars p a -> total a i = mexp a i.
Proof. intros V. unfold total, contribution. rewrite nsum_zero; [lia|]. intros j _. rewrite (V (p + j)) by lia. reflexivity. Qed.
Lemma total_var j i : i < p -> j < q -> total (mvar (p + j) 1) i = column_entry i j.
Proof.
  intros Hi Hj. unfold total, contribution. rewrite (nsum_one _ _ j); [|apply seq_NoDup|apply in_seq; lia|].
  - rewrite !mvar_exp. rewrite Nat.eqb_refl. destruct (Nat.eqb_spec i (p + j)); lia.
  - intros l _ Nl. rewrite mvar_exp. destruct (Nat.eqb_spec (p + l) (p + j)); [lia|reflexivity].
Qed.
Lemma congr_total a b : congr column_relations a b -> forall i, i < p -> total a i = total b i.
Proof.
  induction 1 as [a b I|a|a b _ IH|a b c _ IH1 _ IH2|w a b _ IH]; intros i Hi; auto.
  - apply in_map_iff in I as (j & E & Ij). injection E as <- <-. apply in_seq in Ij. rewrite (total_vars (nth j cols mone)) by apply col_vars. rewrite total_var by lia. reflexivity.
  - symmetry. auto.
  - rewrite IH1, IH2; auto.
  - rewrite !total_mul, IH; auto.
Qed.
(** nothing happens beyond the unknowns *)
Lemma congr_outside a b : congr column_relations a b -> forall i, p + q <= i -> mexp a i = mexp b i.
Proof.
  induction 1 as [a b I|a|a b _ IH|a b c _ IH1 _ IH2|w a b _ IH]; intros i Hi; auto.
  - apply in_map_iff in I as (j & E & Ij). injection E as <- <-. apply in_seq in Ij. rewrite mvar_exp. rewrite (col_vars j i) by lia. destruct (Nat.eqb_spec i (p + j)); lia.
  - symmetry. auto.
  - rewrite IH1, IH2; auto.
  - rewrite !mmul_exp, IH; auto.
Qed.
Definition weight (m : mono) : nat := nsum (fun j => mexp m (p + j)) (seq 0 q).
Lemma to_right d : forall m, weight m = d -> mvars (p + q) m -> exists m0, mvars p m0 /\ congr column_relations m m0.
Proof.
  induction d as [d IH] using lt_wf_ind. intros m Ew V.
  destruct (Nat.eq_dec d 0) as [->|Nd].
  - exists m. split; [|apply cg_refl]. intros i Hi. destruct (le_lt_dec (p + q) i) as [H|H]; [apply V; exact H|].
    assert (Z : forall l, nsum (fun j => mexp m (p + j)) l = 0 -> forall j, In j l -> mexp m (p + j) = 0).
    { induction l as [|x l IHl]; cbn; intros E j I; [destruct I|]. destruct I as [->|I]; [lia|apply IHl; [lia|exact I]]. }
    replace i with (p + (i - p)) by lia. apply (Z (seq 0 q) Ew). apply in_seq. lia.
  - assert (X : exists j, j < q /\ 0 < mexp m (p + j)).
    { assert (Z : forall l, nsum (fun j => mexp m (p + j)) l <> 0 -> exists j, In j l /\ 0 < mexp m (p + j)).
      { induction l as [|x l IHl]; cbn; intros E; [lia|]. destruct (mexp m (p + x)) eqn:Q; [destruct IHl as (j & Ij & Hj); [lia|exists j; auto]|exists x; split; [left; reflexivity|lia]]. }
      destruct (Z (seq 0 q)) as (j & Ij & Hj); [unfold weight in Ew; lia|]. apply in_seq in Ij. exists j. split; [lia|exact Hj]. }
    destruct X as (j & Hj & Pj). assert (D : mdiv (mvar (p + j) 1) m) by (intros i; rewrite mvar_exp; destruct (Nat.eqb_spec i (p + j)) as [->|]; lia).
    apply mdiv_iff in D as (m' & ->). set (a := nth j cols mone).
    assert (C : congr column_relations (mmul (mvar (p + j) 1) m') (mmul m' a)).
    { rewrite mmul_comm. apply cg_mul. apply cg_rel. apply in_map_iff. exists j. split; [reflexivity|apply in_seq; lia]. }
    assert (Wa : weight (mmul m' a) = weight m').
    { unfold weight. apply nsum_ext. intros l _. rewrite mmul_exp. unfold a. rewrite (col_vars j (p + l)) by lia. lia. }
    assert (Wv : weight (mmul (mvar (p + j) 1) m') = S (weight m')).
    { unfold weight. rewrite (nsum_ext _ (fun l => mexp (mvar (p + j) 1) (p + l) + mexp m' (p + l))) by (intros l _; apply mmul_exp).
      rewrite nsum_add. rewrite (nsum_one (fun l => mexp (mvar (p + j) 1) (p + l)) _ j); [rewrite mvar_exp, Nat.eqb_refl; reflexivity|apply seq_NoDup|apply in_seq; lia|].
      intros l _ Nl. rewrite mvar_exp. destruct (Nat.eqb_spec (p + l) (p + j)); [lia|reflexivity]. }
    destruct (IH (weight m')) with (m := mmul m' a) as (m0 & V0 & C0); [lia|exact Wa| |].
    + apply mvars_mul. split; [apply mvars_mul in V; apply V|]. intros i Hi. apply col_vars. lia.
    + exists m0. split; [exact V0|]. apply cg_trans with (mmul m' a); assumption.
Qed.
Lemma congr_iff a b : mvars (p + q) a -> mvars (p + q) b -> (congr column_relations a b <-> forall i, i < p -> total a i = total b i).
Proof.
  intros Va Vb. split; [apply congr_total|]. intros H.
  destruct (to_right _ a eq_refl Va) as (a0 & Va0 & Ca). destruct (to_right _ b eq_refl Vb) as (b0 & Vb0 & Cb).
  assert (E : a0 = b0); [|subst b0; apply cg_trans with a0; [exact Ca|apply cg_sym; exact Cb]].
  apply mono_ext. intros i. destruct (le_lt_dec p i) as [Hi|Hi]; [rewrite (Va0 i Hi), (Vb0 i Hi); reflexivity|].
  rewrite <- (total_vars a0 i Va0), <- (total_vars b0 i Vb0). rewrite <- (congr_total _ _ Ca i Hi), <- (congr_total _ _ Cb i Hi). apply H. exact Hi.
Qed.
End Ip.
