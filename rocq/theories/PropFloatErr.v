(** * C84: rounding errors of the float operations and of matrix arithmetic over floats. *)
From Verif Require Import Base BaseLemmas FieldIface UtilModel MatModel MatProofs FloatModel FloatExact FloatRound FloatErr PropFloatDiv.
From Coq Require Import QArith Qabs Qpower Lqa Lia.
Local Open Scope nat_scope.

(** [u t] is 2^-24 for f32 and 2^-53 for f64, [tiny t] half the smallest positive value: 2^-150 and 2^-1075 *)
Definition u (t : fmt) : Q := Qpower 2 (- prec t).
Definition tiny (t : fmt) : Q := Qpower 2 (2 - emax t - prec t).
(** the largest finite value *)
Definition huge (t : fmt) : Q := (Qpower 2 (emax t) * (1 - u t))%Q.
Lemma tiny_eta t : tiny t = eta t.
Proof. unfold tiny, eta. f_equal. lia. Qed.

(** [z] is [v] up to an error [d]; it is infinite only if [v] is not below the largest finite value; it is no NaN *)
Definition approx (t : fmt) (v d : Q) (z : float) : Prop :=
  (finite z = true /\ (Qabs (fq z - v) <= d)%Q) \/ ((exists s, z = S754_infinity s) /\ (huge t <= Qabs v)%Q).
Lemma near_approx t v d z : near t v d z -> approx t v d z.
Proof.
  intros (_ & N & A & B). destruct (finite z) eqn:Fi; [left; auto|right]. split; [|apply B; reflexivity].
  destruct z; try discriminate; [eauto|contradiction N; reflexivity].
Qed.
Theorem C84_operations : forall t (x y : float), t = binary32 \/ t = binary64 ->
  valid t x -> valid t y -> finite x = true -> finite y = true ->
  approx t (fq x + fq y) (u t * Qabs (fq x + fq y)) (SFadd (prec t) (emax t) x y) /\
  approx t (fq x - fq y) (u t * Qabs (fq x - fq y)) (SFsub (prec t) (emax t) x y) /\
  approx t (fq x * fq y) (u t * Qabs (fq x * fq y) + tiny t) (SFmul (prec t) (emax t) x y) /\
  (~ (fq y == 0)%Q -> approx t (fq x / fq y) (u t * Qabs (fq x / fq y) + tiny t) (SFdiv (prec t) (emax t) x y)).
Proof.
  intros t x y Ht Vx Vy Fx Fy. assert (G : good t) by (destruct Ht as [-> | ->]; [exact good32|exact good64]). rewrite tiny_eta. split; [|split; [|split]].
  - apply near_approx. apply (add_near t G); assumption.
  - apply near_approx. apply (sub_near t G); assumption.
  - apply near_approx. apply (mul_near t G); assumption.
  - intros Ny. apply near_approx. apply (div_near t G); assumption.
Qed.

(** ** Sums of products *)
Section Mat.
Context (t : fmt) (G : good t) (e : fenv).
Notation F := (float_impl t e).
Definition valid_mat (a : mat F) : Prop := Forall (valid t) (ments a : list float).
(** the error of a sum of [n] products whose absolute values add up to [A] *)
Definition sum_error (n : nat) (A : Q) : Q :=
  ((Qpower (1 + u t) (Z.of_nat (S n)) - 1) * A + inject_Z (Z.of_nat n) * tiny t * Qpower (1 + u t) (Z.of_nat n))%Q.
Definition sum_below (n : nat) (f : nat -> Q) : Q := qsum (map f (seq 0 n)).
Lemma sum_error_eq n A : sum_error n A = dbound t n A.
Proof. unfold sum_error, dbound. rewrite tiny_eta. reflexivity. Qed.

Lemma dot_value (a b : mat F) : mat_dot a b = Ok (fold_left (dstep t) (combine (ments a : list float) (ments b : list float)) fzero).
Proof. exact (foldM_dstep t _ _). Qed.
Theorem C84_dot : forall a b (z : float), valid_mat a -> valid_mat b -> mat_dot a b = Ok z -> finite z = true ->
  let ps := combine (ments a : list float) (ments b : list float) in
  (Qabs (fq z - qsum (map (fun x => fq (fst x) * fq (snd x))%Q ps)) <= sum_error (length ps) (qsum (map (fun x => Qabs (fq (fst x) * fq (snd x))) ps)))%Q.
Proof.
  intros a b z Va Vb E Fi. rewrite dot_value in E. injection E as <-. cbv zeta. rewrite sum_error_eq.
  apply (dfold_zero t G false); [|exact Fi]. unfold valid_mat in Va, Vb. rewrite Forall_forall in Va, Vb.
  intros [x y] I. split; [apply Va; eapply in_combine_l; exact I|apply Vb; eapply in_combine_r; exact I].
Qed.
Lemma frobenius_value (a : mat F) : mat_frobenius a = Ok (fold_left (dstep t) (map (fun x => (x, x)) (ments a : list float)) fzero).
Proof.
  unfold mat_frobenius. rewrite <- foldM_dstep.
  assert (E : forall (l : list F) (acc : F), foldM (fun acc x : F => q <- fmul x x ;; fadd acc q) l acc
    = foldM (fun (acc : float) (x : float * float) => bind (Ok (SFmul (prec t) (emax t) (fst x) (snd x))) (fun q => Ok (SFadd (prec t) (emax t) acc q)))
       (map (fun x => (x, x)) (l : list float)) acc).
  { induction l as [|x l IH]; intros acc; [reflexivity|]. cbn [foldM map fst snd]. cbn [fmul fadd float_impl bind]. apply IH. }
  apply E.
Qed.
Theorem C84_frobenius : forall a (z : float), valid_mat a -> mat_frobenius a = Ok z -> finite z = true ->
  let s := qsum (map (fun x => fq x * fq x)%Q (ments a : list float)) in
  (Qabs (fq z - s) <= sum_error (length (ments a)) s)%Q.
Proof.
  intros a z Va E Fi. rewrite frobenius_value in E. injection E as <-. cbv zeta. rewrite sum_error_eq.
  pose proof (dfold_zero t G false (map (fun x => (x, x)) (ments a : list float))) as H.
  rewrite map_length, !map_map in H. unfold dprod in H. cbn [fst snd] in H.
  assert (Eq : (qsum (map (fun x => Qabs (fq x * fq x)) (ments a : list float)) == qsum (map (fun x => fq x * fq x)%Q (ments a : list float)))%Q).
  { clear. induction (ments a : list float) as [|x l IH]; [reflexivity|]. cbn [map qsum fold_right].
    fold (qsum (map (fun x => Qabs (fq x * fq x)) l)). fold (qsum (map (fun x => fq x * fq x)%Q l)). rewrite IH. rewrite Qabs_pos; [reflexivity|]. nra. }
  eapply Qle_trans; [apply H|unfold dbound; rewrite Eq; apply Qle_refl].
  - intros x I. apply in_map_iff in I as (y & <- & I). unfold valid_mat in Va. rewrite Forall_forall in Va. split; apply Va; exact I.
  - exact Fi.
Qed.
Lemma valid_entry (a : mat F) i j : valid_mat a -> valid t (mentry a i j).
Proof.
  intros V. unfold mentry. unfold valid_mat in V. rewrite Forall_forall in V.
  destruct (nth_in_or_default (i * mcols a + j) (ments a) f0) as [I|E]; [apply V; exact I|]. rewrite E. reflexivity.
Qed.
Lemma mul_value (a b : mat F) : mshape a -> mshape b -> mcols a = mrows b ->
  mat_mul a b = Ok (from_fn (mrows a) (mcols b) (fun i j => fold_left (dstep t) (map (fun l => (mentry a i l, mentry b l j)) (seq 0 (mcols a))) fzero : F)).
Proof.
  intros Sa Sb K. unfold mat_mul. rewrite K, Nat.eqb_refl. apply from_fnM_Ok. intros i j Hi Hj.
  rewrite row_slice_ok by assumption. cbn [bind]. rewrite K. rewrite <- foldM_dstep.
  assert (E : forall s len (acc : F), s + len <= mrows b ->
    foldM (fun acc p => y <- mget b (snd p) j ;; q <- fmul (fst p) y ;; fadd acc q) (combine (map (fun c => mentry a i c) (seq s len)) (seq s len)) acc
    = foldM (fun (acc : float) (x : float * float) => bind (Ok (SFmul (prec t) (emax t) (fst x) (snd x))) (fun q => Ok (SFadd (prec t) (emax t) acc q)))
       (map (fun l => (mentry a i l, mentry b l j)) (seq s len)) acc).
  { intros s len; revert s. induction len as [|len IH]; intros s acc L; [reflexivity|]. cbn [seq map combine foldM fst snd].
    rewrite mget_ok by (assumption || lia). cbn [bind fmul fadd float_impl]. apply IH. lia. }
  apply (E 0 (mrows b) f0). lia.
Qed.
Theorem C84_mul : forall a b c i j, mshape a -> mshape b -> valid_mat a -> valid_mat b -> mat_mul a b = Ok c ->
  i < mrows a -> j < mcols b -> finite (mentry c i j) = true ->
  (Qabs (fq (mentry c i j) - sum_below (mcols a) (fun k => fq (mentry a i k) * fq (mentry b k j)))
     <= sum_error (mcols a) (sum_below (mcols a) (fun k => Qabs (fq (mentry a i k) * fq (mentry b k j)))))%Q.
Proof.
  intros a b c i j Sa Sb Va Vb E Hi Hj Fi.
  assert (K : mcols a = mrows b) by (unfold mat_mul in E; destruct (Nat.eqb_spec (mcols a) (mrows b)); [assumption|discriminate]).
  rewrite (mul_value a b Sa Sb K) in E. injection E as <-. rewrite from_fn_entry in Fi |- * by assumption. rewrite sum_error_eq.
  pose proof (dfold_zero t G false (map (fun l => (mentry a i l, mentry b l j)) (seq 0 (mcols a)))) as H.
  rewrite map_length, seq_length, !map_map in H. unfold dprod in H. cbn [fst snd] in H. apply H; [|exact Fi].
  intros x I. apply in_map_iff in I as (k & <- & I). split; apply valid_entry; assumption.
Qed.
Theorem C84_add : forall a b c i j, mshape a -> mshape b -> valid_mat a -> valid_mat b -> mat_add a b = Ok c ->
  i < mrows a -> j < mcols a -> finite (mentry a i j) = true -> finite (mentry b i j) = true ->
  approx t (fq (mentry a i j) + fq (mentry b i j)) (u t * Qabs (fq (mentry a i j) + fq (mentry b i j))) (mentry c i j).
Proof.
  intros a b c i j Sa Sb Va Vb E Hi Hj Fa Fb. unfold mat_add in E.
  destruct (Nat.eqb_spec (mrows a) (mrows b)) as [Er|]; [|discriminate]. destruct (Nat.eqb_spec (mcols a) (mcols b)) as [Ec|]; [|discriminate].
  cbn [andb] in E. apply bind_Ok in E as (es & Ees & E). assert (Ec' : c = mkmat es (mrows a) (mcols a)) by congruence. clear E.
  rewrite (mapM_Ok_intro _ (fun x : F * F => SFadd (prec t) (emax t) (fst x) (snd x) : F)) in Ees by reflexivity.
  assert (Ees' : es = map (fun x : F * F => SFadd (prec t) (emax t) (fst x) (snd x) : F) (combine (ments a) (ments b))) by congruence.
  assert (En : mentry c i j = SFadd (prec t) (emax t) (mentry a i j) (mentry b i j)).
  { rewrite Ec', Ees'. unfold mentry. cbn [ments mcols]. rewrite <- Ec. unfold mshape in Sa, Sb. rewrite <- Er, <- Ec in Sb.
    pose proof (idx_lt _ _ _ _ Hi Hj) as L.
    rewrite (nth_indep _ f0 (SFadd (prec t) (emax t) fzero fzero : F)).
    2: { rewrite map_length, combine_length, Sa, Sb, Nat.min_id. exact L. }
    etransitivity; [apply (map_nth (fun x : F * F => SFadd (prec t) (emax t) (fst x) (snd x) : F) _ (f0, f0))|].
    rewrite combine_nth by congruence. reflexivity. }
  rewrite En. apply near_approx. apply (add_near t G); try assumption; apply valid_entry; assumption.
Qed.
End Mat.

(** over f64: 1/49 times 49, three times, is not 3 but finite, and within the bound *)
Section Example.
Context (e : fenv).
Notation F := (float_impl binary64 e).
Definition r49 : float := SFdiv 53 1024 (of_int binary64 1) (of_int binary64 49).
Definition ex_a : mat F := @mkmat F [r49; r49; r49] 1 3.
Definition ex_b : mat F := @mkmat F [of_int binary64 49; of_int binary64 49; of_int binary64 49] 3 1.
Example C84_mul_example : mshape ex_a /\ mshape ex_b /\ valid_mat binary64 e ex_a /\ valid_mat binary64 e ex_b /\
  exists c, mat_mul ex_a ex_b = Ok c /\ finite (mentry c 0 0) = true /\ SFeqb (mentry c 0 0) (of_int binary64 3) = false.
Proof.
  split; [reflexivity|]. split; [reflexivity|]. split; [repeat constructor|]. split; [repeat constructor|].
  assert (H : (c <- mat_mul ex_a ex_b ;; Ok (finite (mentry c 0 0), SFeqb (mentry c 0 0) (of_int binary64 3))) = Ok (true, false))
    by (vm_compute; reflexivity).
  apply bind_Ok in H as (c & E & H). injection H as H1 H2. eauto.
Qed.
Example C84_dot_example : exists z : float, mat_dot ex_a ex_b = Ok z /\ finite z = true.
Proof.
  assert (H : (z <- mat_dot ex_a ex_b ;; Ok (finite z)) = Ok true) by (vm_compute; reflexivity).
  apply bind_Ok in H as (z & E & H). injection H as H. eauto.
Qed.
Example C84_frobenius_example : exists z : float, mat_frobenius ex_a = Ok z /\ finite z = true.
Proof.
  assert (H : (z <- mat_frobenius ex_a ;; Ok (finite z)) = Ok true) by (vm_compute; reflexivity).
  apply bind_Ok in H as (z & E & H). injection H as H. eauto.
Qed.
Example C84_add_example : exists c, mat_add ex_a ex_a = Ok c /\ finite (mentry c 0 1) = true.
Proof.
  assert (H : (c <- mat_add ex_a ex_a ;; Ok (finite (mentry c 0 1))) = Ok true) by (vm_compute; reflexivity).
  apply bind_Ok in H as (z & E & H). injection H as H. eauto.
Qed.
(** the bound for three products of f64 numbers is a multiple of 2^-51: small *)
Example C84_bound_example : (sum_error binary64 3 3 <= Qpower 2 (-49))%Q.
Proof. vm_compute. discriminate. Qed.
End Example.

Print Assumptions C84_operations.
Print Assumptions C84_dot.
Print Assumptions C84_frobenius.
Print Assumptions C84_mul.
Print Assumptions C84_add.
