(** * C91: how far p * self and l * u are apart when lu runs on floats. *)
From Verif Require Import Base BaseLemmas FieldIface UtilModel MatModel MatProofs AlgModel AlgProofs ElimShape ElimEntry
  FloatModel FloatExact FloatRound FloatErr FloatSim PropFloatElim PropFloatErr FloatLU PropFloatDiv.
From Coq Require Import QArith Qabs Qpower Lqa Lia.
Local Open Scope nat_scope.

Lemma u_small t : t = binary32 \/ t = binary64 -> (uu t <= 1 # 1000)%Q.
Proof. intros [-> | ->]; vm_compute; discriminate. Qed.
Lemma good_t t : t = binary32 \/ t = binary64 -> good t.
Proof. intros [-> | ->]; [exact good32|exact good64]. Qed.

Lemma fq_one t : good t -> (fq (fone t) == 1)%Q.
Proof. intros G. destruct (fone_val t G) as (_ & _ & Q1). rewrite <- fq_fval, Q1. reflexivity. Qed.

(** a list of the numbers below [n] without repetitions can be inverted *)
Lemma is_perm_onto n l i : is_perm n l -> i < n -> exists q, q < n /\ nth q l 0 = i.
Proof.
  intros (Len & B & Inj) Hi.
  assert (ND : NoDup l).
  { apply (NoDup_nth l 0). intros x y Hx Hy E. apply Inj; [lia|lia|exact E]. }
  assert (In : incl (seq 0 n) l).
  { apply NoDup_length_incl; [exact ND|rewrite seq_length; lia|]. intros x Ix. apply (In_nth _ _ 0) in Ix as (q & Hq & <-).
    apply in_seq. specialize (B q). lia. }
  specialize (In i ltac:(apply in_seq; lia)). apply (In_nth _ _ 0) in In as (q & Hq & E). exists q. split; [lia|exact E].
Qed.
Lemma is_perm_inverse n l : is_perm n l -> exists g : nat -> nat,
  (forall i, i < n -> g (nth i l 0) = i) /\ (forall i, i < n -> g i < n /\ nth (g i) l 0 = i).
Proof.
  intros P. exists (fun i => match find (fun q => nth q l 0 =? i) (seq 0 n) with Some q => q | None => 0 end).
  assert (H : forall i, i < n -> exists q, find (fun q => nth q l 0 =? i) (seq 0 n) = Some q /\ q < n /\ nth q l 0 = i).
  { intros i Hi. destruct (find (fun q => nth q l 0 =? i) (seq 0 n)) as [q|] eqn:E.
    - apply find_some in E as [I E]. apply in_seq in I. apply Nat.eqb_eq in E. exists q. repeat split; [lia|exact E].
    - exfalso. destruct (is_perm_onto n l i P Hi) as (q & Hq & Eq). apply (find_none _ _ E q) in Hq as N || pose proof (find_none _ _ E q ltac:(apply in_seq; lia)) as N.
      apply Nat.eqb_neq in N. contradiction. }
  split.
  - intros i Hi. destruct P as (Len & B & Inj). destruct (H (nth i l 0) (B i Hi)) as (q & -> & Hq & Eq). apply Inj; assumption.
  - intros i Hi. destruct (H i Hi) as (q & -> & Hq & Eq). auto.
Qed.

(** the invariant holds at the end *)
Lemma lu_flu t e (a p l u : mat (float_impl t e)) : good t -> (uu t <= 1 # 1000)%Q -> mshape a -> valid_mat t e a ->
  mat_lu (float_stab t e) a = Ok (p, l, u) ->
  exists r s, flu t e (mrows a) (mcols a) a r s /\ lu_l s = l /\ lu_u s = u /\
    forall i k, i < mrows a -> k < mrows a -> mentry p i k = if nth i (lu_p s) O =? k then fone t else fzero.
Proof.
  intros G US Sa Va E. unfold mat_lu in E. apply bind_Ok in E as ([r s] & E & E2). cbn [snd] in E2.
  apply bind_Ok in E2 as (p' & Ep & E2).
  assert (p' = p /\ lu_l s = l /\ lu_u s = u) as (-> & El & Eu) by (repeat split; congruence). clear E2.
  set (n := mrows a) in *. set (m := mcols a) in *. exists r, s.
  assert (I : flu t e n m a (fst (r, s)) (snd (r, s))).
  { eapply (foldM_seq_inv _ (fun _ z => flu t e n m a (fst z) (snd z))); [| |exact E].
    - cbn [fst snd]. split; cbn [lu_p lu_l lu_u].
      + split; [apply seq_length|]. split; [intros i Hi; rewrite seq_nth by exact Hi; lia|].
        intros i j Hi Hj. rewrite !seq_nth by assumption. lia.
      + lia.
      + apply identity_shp.
      + split; [exact Sa|split; reflexivity].
      + intros i k Hi Hk. unfold mat_identity. rewrite from_fn_entry by assumption. destruct (i =? k); [apply (fone_val t G)|reflexivity].
      + intros i j Hi Hj. apply valid_entry. exact Va.
      + intros i k Hi Hk _. unfold mat_identity. rewrite from_fn_entry by assumption. reflexivity.
      + intros i k Hi Hk. unfold mat_identity. rewrite from_fn_entry by lia. destruct (Nat.eqb_spec i k); [lia|reflexivity].
      + intros i k Hki Hi. unfold mat_identity. rewrite !from_fn_entry by lia. rewrite Nat.eqb_refl. destruct (Nat.eqb_spec i k); [lia|].
        destruct (fone_val t G) as (_ & F1 & _). change (@f0 (float_impl t e)) with fzero. change (@f1 (float_impl t e)) with (fone t).
        destruct (fone t) as [| | |[] ? ?]; try discriminate; reflexivity.
      + intros k Hk. lia.
      + intros i j Hi. lia.
      + intros i j _ Hi Hj _ _ Fi. rewrite seq_nth by exact Hi. cbn [Nat.add]. split; [exact Fi|].
        rewrite sum_below_0. pose proof (wp_0 t) as W. unfold nq. cbn [Z.of_nat].
        setoid_replace (fq (mentry a i j) - (0 + fq (mentry a i j)))%Q with 0%Q by ring. rewrite W. cbn [Qabs Z.abs].
        change (inject_Z 0) with 0%Q. set (q := sum_below _ _). change (Qabs 0) with 0%Q. lra.
    - intros c [r0 s0] [r1 s1] Hc I0 E0. cbn [fst snd Nat.add] in *.
      destruct I0 as [Pm Hrn Shl Shu Vl Vu Id Low Dom Piv Done Todo] eqn:EI. clear EI.
      apply (lu_step_inv (float_stab t e) n m) in E0; [| |exact (proj1 Pm)|exact Shl|exact Shu|exact Hc].
      + destruct E0 as [[-> ->]|(Hr & -> & si & x & Rd)]; [exact I0|]. eapply (flu_round t G e US); eassumption.
      + intros; eexists; reflexivity. }
  cbn [fst snd] in I. split; [exact I|]. split; [exact El|]. split; [exact Eu|].
  destruct I as [Pm _ _ _ _ _ _ _ _ _ _ _]. unfold mat_permutation_from_vec in Ep. rewrite (proj1 Pm) in Ep.
  rewrite (from_fnM_Ok n n _ (fun r c => if nth r (lu_p s) 0 =? c then f1 else f0)) in Ep.
  - injection Ep as <-. intros i k Hi Hk. rewrite from_fn_entry by assumption. reflexivity.
  - intros i j Hi Hj. rewrite (vget_Ok _ _ 0) by (rewrite (proj1 Pm); exact Hi). reflexivity.
Qed.

(** the factor (1 + 2u)^k *)
Definition growth (t : fmt) (k : nat) : Q := Qpower (1 + 2 * PropFloatErr.u t) (Z.of_nat k).
Definition q_of_nat (k : nat) : Q := inject_Z (Z.of_nat k).

(** The difference between entry (i, j) of p * self and the same entry of l * u, both taken over the
    rationals, is at most a small multiple of the sum of the absolute values of the products that make
    up the entry of l * u, plus a multiple of the smallest positive number.  Only the entries of l and
    u which occur in the entry of the product have to be finite; the entry of self is then finite too. *)
Theorem C91_backward : forall t e (a p l u : mat (float_impl t e)) i j, t = binary32 \/ t = binary64 ->
  mshape a -> valid_mat t e a -> mat_lu (float_stab t e) a = Ok (p, l, u) ->
  i < mrows a -> j < mcols a ->
  (forall k, k <= i -> finite (mentry l i k) = true) -> (forall k, k <= i -> finite (mentry u k j) = true) ->
  (Qabs (sum_below (mrows a) (fun k => fq (mentry p i k) * fq (mentry a k j)) -
         sum_below (mrows a) (fun k => fq (mentry l i k) * fq (mentry u k j)))
   <= (growth t (i + 4) - 1) * sum_below (mrows a) (fun k => Qabs (fq (mentry l i k) * fq (mentry u k j)))
      + (q_of_nat i + 2 * Qabs (fq (mentry l i i))) * growth t i * tiny t)%Q.
Proof.
  intros t e a p l u i j Ht Sa Va E Hi Hj Fl Fu. pose proof (good_t t Ht) as G.
  destruct (lu_flu t e a p l u G (u_small t Ht) Sa Va E) as (r & s & I & <- & <- & Pe).
  destruct I as [Pm Hrn Shl Shu Vl Vu Id Low Dom Piv Done Todo]. set (n := mrows a) in *.
  assert (Sp : (sum_below n (fun k => fq (mentry p i k) * fq (mentry a k j)) == fq (mentry a (nth i (lu_p s) O) j))%Q).
  { pose proof (proj1 (proj2 Pm) i Hi) as B. set (q := nth i (lu_p s) O) in *.
    rewrite (sum_below_two n 0 q); [|lia|].
    - rewrite sum_below_0, Pe by assumption. fold q. rewrite Nat.eqb_refl.
      rewrite (fq_one t G). ring.
    - intros k Hk N. rewrite Pe by lia. fold q. destruct (Nat.eqb_spec q k); [lia|]. cbn [fq fzero]. ring. }
  rewrite Sp. unfold growth, q_of_nat. rewrite tiny_eta. change (PropFloatErr.u t) with (uu t). fold (wp t (i + 4)). fold (wp t i). fold (nq i).
  pose proof (wp_ge t i) as W. pose proof (nq_pos i) as Nq. pose proof (eta_pos t) as Ep. pose proof (Qabs_nonneg (fq (mentry (lu_l s) i i))) as Pl.
  destruct (Nat.lt_ge_cases i r) as [C|C].
  - destruct (Done i j C Hj Fl Fu) as [_ D].
    rewrite (sum_below_two n i i (fun k => fq (mentry (lu_l s) i k) * fq (mentry (lu_u s) k j))%Q); [|lia|].
    2:{ intros k Hk N. rewrite Low by lia. cbn [fq fzero]. ring. }
    rewrite (sum_below_two n i i (fun k => Qabs (fq (mentry (lu_l s) i k) * fq (mentry (lu_u s) k j)))%Q); [|lia|].
    2:{ intros k Hk N. rewrite Low by lia. cbn [fq fzero]. rewrite Qmult_0_l. reflexivity. }
    eapply Qle_trans; [exact D|]. apply Qplus_le_r. lra.
  - destruct (Todo i j C Hi Hj) as [_ D]; [intros; apply Fl; lia|intros; apply Fu; lia|apply Fu; lia|].
    assert (Lii : (fq (mentry (lu_l s) i i) == 1)%Q).
    { rewrite Id, Nat.eqb_refl by lia. apply (fq_one t G). }
    assert (Z : forall k, r <= k -> k < n -> k <> i -> (fq (mentry (lu_l s) i k) == 0)%Q).
    { intros k K1 K2 N. rewrite Id by lia. destruct (Nat.eqb_spec i k); [lia|]. reflexivity. }
    rewrite (sum_below_two n r i (fun k => fq (mentry (lu_l s) i k) * fq (mentry (lu_u s) k j))%Q); [|lia|].
    2:{ intros k Hk N. rewrite Z by lia. ring. }
    rewrite (sum_below_two n r i (fun k => Qabs (fq (mentry (lu_l s) i k) * fq (mentry (lu_u s) k j)))%Q); [|lia|].
    2:{ intros k Hk N. rewrite Z by lia. rewrite Qmult_0_l. reflexivity. }
    rewrite Lii in *. rewrite !Qmult_1_l. eapply Qle_trans; [exact D|].
    pose proof (wp_mono t r i C) as M1. pose proof (wp_mono t r (i + 4) ltac:(lia)) as M2. pose proof (wp_ge t r) as Wr. pose proof (nq_pos r) as Nr.
    assert (N : (nq r <= nq i)%Q) by (unfold nq; rewrite <- Zle_Qle; lia).
    assert (P0 : (0 <= sum_below r (fun k => Qabs (fq (mentry (lu_l s) i k) * fq (mentry (lu_u s) k j))))%Q) by (apply sum_below_nonneg; intros; apply Qabs_nonneg).
    pose proof (Qabs_nonneg (fq (mentry (lu_u s) i j))) as P1.
    revert M1 M2 W Wr Nr N P0 P1 Nq Pl Ep.
    generalize (wp t r), (wp t i), (wp t (i + 4)), (nq r), (nq i), (sum_below r (fun k => Qabs (fq (mentry (lu_l s) i k) * fq (mentry (lu_u s) k j)))), (Qabs (fq (mentry (lu_u s) i j))), (Qabs 1), (eta t).
    clear. intros wr wi w4 nr ni q1 q2 l et M1 M2 W Wr Nr N P0 P1 Nq Pl Ep.
    assert (A : ((wr - 1) * (q1 + q2) <= (w4 - 1) * (q1 + q2))%Q) by nra.
    assert (B : (nr * wr <= ni * wi)%Q) by nra.
    assert (C : (nr * wr * et <= ni * wi * et)%Q) by (apply Qmult_le_compat_r; lra).
    assert (D : (0 <= l * wi * et)%Q) by (repeat apply Qmult_le_0_compat; lra). lra.
Qed.
(** finite factors come from a finite matrix *)
Theorem C91_finite : forall t e (a p l u : mat (float_impl t e)), t = binary32 \/ t = binary64 ->
  mshape a -> valid_mat t e a -> mat_lu (float_stab t e) a = Ok (p, l, u) ->
  (forall i k, i < mrows a -> k < mrows a -> finite (mentry l i k) = true) ->
  (forall i j, i < mrows a -> j < mcols a -> finite (mentry u i j) = true) ->
  forall i j, i < mrows a -> j < mcols a -> finite (mentry a i j) = true.
Proof.
  intros t e a p l u Ht Sa Va E Fl Fu i j Hi Hj. pose proof (good_t t Ht) as G.
  destruct (lu_flu t e a p l u G (u_small t Ht) Sa Va E) as (r & s & I & <- & <- & _).
  destruct I as [Pm Hrn Shl Shu Vl Vu Id Low Dom Piv Done Todo].
  destruct (is_perm_onto _ _ i Pm Hi) as (q & Hq & <-).
  destruct (Nat.lt_ge_cases q r) as [C|C].
  - apply (Done q j C Hj); intros; [apply Fl|apply Fu]; lia.
  - apply (Todo q j C Hq Hj); intros; [apply Fl|apply Fu|apply Fu]; lia.
Qed.
(** Whatever the rounding: l is lower triangular with exact zeros, no entry below the diagonal of l is
    larger in absolute value than the diagonal entry of its column, and that diagonal entry is not
    epsilon-equal to zero *)
Theorem C91_lower : forall t e (a p l u : mat (float_impl t e)), t = binary32 \/ t = binary64 ->
  mshape a -> valid_mat t e a -> mat_lu (float_stab t e) a = Ok (p, l, u) ->
  (forall i k, i < k -> k < mrows a -> mentry l i k = fzero) /\
  (forall i k, k < i -> i < mrows a -> abs_le (mentry l i k) (mentry l k k)) /\
  (forall k, k < mrows a -> ~ abs_lt_eps t (mentry l k k)).
Proof.
  intros t e a p l u Ht Sa Va E. pose proof (good_t t Ht) as G.
  destruct (lu_flu t e a p l u G (u_small t Ht) Sa Va E) as (r & s & I & <- & <- & _).
  destruct I as [Pm Hrn Shl Shu Vl Vu Id Low Dom Piv Done Todo]. split; [exact Low|]. split; [exact Dom|].
  intros k Hk. destruct (Nat.lt_ge_cases k r) as [C|C].
  - specialize (Piv k C). rewrite eps_zero in Piv. unfold abs_lt_eps. congruence.
  - rewrite Id, Nat.eqb_refl by lia. unfold abs_lt_eps. destruct Ht as [-> | ->]; vm_compute; discriminate.
Qed.
(** p is the matrix of a permutation, with exact entries *)
Theorem C91_permutation : forall t e (a p l u : mat (float_impl t e)), t = binary32 \/ t = binary64 ->
  mshape a -> valid_mat t e a -> mat_lu (float_stab t e) a = Ok (p, l, u) ->
  exists f g : nat -> nat, (forall i, i < mrows a -> f i < mrows a /\ g (f i) = i) /\ (forall i, i < mrows a -> g i < mrows a /\ f (g i) = i) /\
    forall i k, i < mrows a -> k < mrows a -> mentry p i k = if f i =? k then fone t else fzero.
Proof.
  intros t e a p l u Ht Sa Va E. pose proof (good_t t Ht) as G.
  destruct (lu_flu t e a p l u G (u_small t Ht) Sa Va E) as (r & s & I & _ & _ & Pe).
  destruct I as [Pm _ _ _ _ _ _ _ _ _ _ _]. destruct (is_perm_inverse _ _ Pm) as (g & G1 & G2).
  exists (fun i => nth i (lu_p s) O), g. split; [|split; [exact G2|exact Pe]].
  intros i Hi. split; [apply (proj1 (proj2 Pm)); exact Hi|]. apply G1. exact Hi.
Qed.

(** Not vacuous, and the error is there: lu of ((7, 3), (49, 1)) over f64 has finite factors, and column 0
    of l * u is not (49, 7) *)
Section Example.
Context (e : fenv).
Notation H := (float_impl binary64 e).
Definition ex_a : mat H := @mkmat H (map (of_int binary64 : Z -> H) [7; 3; 49; 1]%Z) 2 2.
Example ex_shape : mshape ex_a. Proof. reflexivity. Qed.
Example ex_valid : valid_mat binary64 e ex_a.
Proof. unfold valid_mat. apply Forall_forall. intros x I. cbn [ex_a ments map] in I. repeat (destruct I as [<-|I]; [vm_compute; reflexivity|]). destruct I. Qed.
Definition fin_all (a : mat H) : bool := forallb finite (ments a : list float).
Definition err_zero (r : mat H * mat H * mat H) (i j : nat) : bool := let '(p, l, u) := r in
  Qeq_bool (sum_below 2 (fun k => fq (mentry p i k) * fq (mentry ex_a k j))%Q) (sum_below 2 (fun k => fq (mentry l i k) * fq (mentry u k j)))%Q.
Example C91_example : exists p l u : mat H, mat_lu (float_stab binary64 e) ex_a = Ok (p, l, u) /\
  fin_all l = true /\ fin_all u = true /\ err_zero (p, l, u) 0 0 = false /\ err_zero (p, l, u) 1 0 = false.
Proof.
  assert (E : (r <- mat_lu (float_stab binary64 e) ex_a ;; Ok (fin_all (snd (fst r)), fin_all (snd r), err_zero r 0 0, err_zero r 1 0))
    = Ok (true, true, false, false)) by (vm_compute; reflexivity).
  apply bind_Ok in E as ([[p l] u] & E & E2). cbn [fst snd] in E2. exists p, l, u. split; [exact E|].
  assert (forall a b c d : bool, Ok (a, b, c, d) = Ok (true, true, false, false) -> a = true /\ b = true /\ c = false /\ d = false) as I
    by (intros ? ? ? ? K; injection K; auto).
  apply I in E2. exact E2.
Qed.
End Example.
Print Assumptions C91_backward.
Print Assumptions C91_finite.
Print Assumptions C91_lower.
Print Assumptions C91_permutation.
