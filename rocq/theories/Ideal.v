(** * A field implementation without overflow: computing with the numbers themselves.

    Not a model of any type in the crate.  It is used to run the algorithms on mathematical matrices
    (so that for instance every matrix has a reduced row echelon form), and to state what the code
    does when its field type never overflows. *)
From Verif Require Import Base BaseLemmas FieldIface.
From Coq Require Import Field_theory Ring Field.

Section Ideal.
Context (K : MathField).

Definition keqb (x y : K) : bool := if kdec x y then true else false.
Definition ideal_impl : FieldImpl := {|
  fcar := K;
  f0 := k0;
  f1 := k1;
  feqb := keqb;
  fadd := fun x y => Ok (kadd x y);
  fsub := fun x y => Ok (ksub x y);
  fneg := fun x => Ok (kopp x);
  fmul := fun x y => Ok (kmul x y);
  fdiv := fun x y => if keqb y k0 then Panic DivZero else Ok (kdiv x y);
  finv := fun x => if keqb x k0 then Panic DivZero else Ok (kinv x);
  fpowi32 := fun x n => Ok (kpow x (Z.to_nat n));
  fsum := fun l => vs <- mapM (fun r => r) l ;; Ok (ksum vs)
|}.

Lemma keqb_iff x y : keqb x y = true <-> x = y.
Proof. unfold keqb. destruct (kdec x y); split; congruence. Qed.

Lemma ideal_sum (l : list (res K)) vs : l = map Ok vs -> mapM (fun r => r) l = Ok vs.
Proof.
  revert l. induction vs as [|v vs IH]; intros l ->; [reflexivity|]. cbn. rewrite (IH _ eq_refl). reflexivity.
Qed.
Lemma ideal_sum_safe (l : list (res K)) : Forall (fun r => safe r (fun _ => True)) l ->
  safe (mapM (fun r => r) l) (fun vs => l = map Ok vs).
Proof.
  induction 1 as [|r l H _ IH]; [reflexivity|]. cbn.
  destruct r as [x|[]|]; cbn in *; try contradiction; try exact I.
  eapply safe_bind; [exact IH|]. intros vs ->. reflexivity.
Qed.
Lemma ideal_sum_panic (vs : list K) k rest : mapM (fun r : res K => r) (map Ok vs ++ Panic k :: rest) = Panic k.
Proof. induction vs as [|v vs IH]; [reflexivity|]. cbn. rewrite IH. reflexivity. Qed.

Definition ideal_spec : FieldSpec ideal_impl K.
Proof.
  refine {| fwf := fun _ : ideal_impl => True; den := fun x : ideal_impl => (x : K) |}; try (intros; exact I); try reflexivity.
  - intros x _. apply keqb_iff.
  - intros. split; [exact I|reflexivity].
  - intros. split; [exact I|reflexivity].
  - intros. split; [exact I|reflexivity].
  - intros. split; [exact I|reflexivity].
  - intros x y _ _ N. cbn. destruct (keqb y k0) eqn:E; [apply keqb_iff in E; contradiction|]. split; [exact I|reflexivity].
  - intros x _ N. cbn. destruct (keqb x k0) eqn:E; [apply keqb_iff in E; contradiction|]. split; [exact I|reflexivity].
  - intros. split; [exact I|reflexivity].
  - intros l H. cbn. eapply safe_bind; [apply ideal_sum_safe; exact H|]. intros vs ->. cbn. split; [exact I|].
    exists vs. split; [reflexivity|]. rewrite map_id. reflexivity.
  - intros vs k rest _. left. cbn. rewrite ideal_sum_panic. reflexivity.
Defined.

(** zero is the least stable value, other values are tied *)
Definition ideal_stab : StabImpl ideal_impl := {|
  feps := keqb : ideal_impl -> ideal_impl -> bool;
  fstab := fun x y : ideal_impl => Ok (Some (if keqb y k0 then (if keqb x k0 then Eq else Gt)
                                             else if keqb x k0 then Lt else Eq));
  fpcmp := fun _ _ => Ok None
|}.
Lemma ideal_stab_spec : StabSpec ideal_spec ideal_stab.
Proof.
  constructor.
  - intros x _. apply keqb_iff.
  - intros x y _ _. cbn. eexists. split; [reflexivity|]. split.
    + intros Nx ->. rewrite (proj2 (keqb_iff k0 k0) eq_refl).
      destruct (keqb x k0) eqn:E; [apply keqb_iff in E; contradiction|reflexivity].
    + intros ->. rewrite (proj2 (keqb_iff k0 k0) eq_refl). destruct (keqb y k0); discriminate.
Qed.
End Ideal.
