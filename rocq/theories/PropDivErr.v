(** * C149: rounding errors of division over f32 and f64 by divisors whose leading coefficients are one. *)
From Coq Require Import ZArith QArith Qcanon Qabs Lqa Lia.
From Coq Require Import Floats.SpecFloat.
From Verif Require Import Base BaseLemmas FieldIface MDegModel OrdModel PolyModel CompModel MonoSpec MDegProofs OrdProofs GroebnerSpec
  FloatModel FloatExact FloatRound FloatErr FloatSim CleanShape PropFloatDiv PropFloatErr PropClean PropPolyErr DivErr.
Local Open Scope nat_scope.

Section C149.
Context (t : fmt) (G : good t) (e : fenv) (O : ord_impl) (OS : OrderSpec O).
Notation F := (float_impl t e).

(** the dividend differs from the sum of the products of quotients and divisors plus the remainder by no more than
    the error of adding up so many products: [dbound t k A] is ((1 + u)^(k+1) - 1) A + k eta (1 + u)^k *)
Theorem C149_backward : forall n (f : poly F) (gs : list (poly F)) r qs,
  distinct f -> nonzero f -> valid_poly t e f -> (forall s, In s f -> mwf (tdeg s)) ->
  (forall g, In g gs -> distinct g /\ nonzero g /\ valid_poly t e g /\ (forall s, In s g -> mwf (tdeg s))) ->
  (forall g l, In g gs -> leading_term O g = Ok (Some l) -> (coef l : float) = fone t) ->
  divide Debug O n f gs = Ok (r, qs) ->
  (forall q s, In q qs -> In s q -> finite (coef s : float) = true) ->
  forall d, mwf d -> finite_at t e r d ->
  let products := flat_map (fun x => pairs t e d (fst x) (snd x)) (combine qs gs) in
  (Qabs (coef_value t e f d - (product_sum products + coef_value t e r d)) <=
     dbound t (length products) (Qabs (coef_value t e f d) + abs_sum products))%Q.
Proof.
  intros n f gs r qs Nf Zf Vf Mf Cg C1 E Fq d Md Fi. cbv zeta. fold (allpairs t e d qs gs).
  assert (Fq' : Forall (fin_poly t e) qs).
  { apply Forall_forall. intros q Iq. apply Forall_forall. intros s Is. exact (Fq q s Iq Is). }
  destruct (inv_loop t G e OS f gs Cg C1 n f _ _ r qs (inv_start t e OS f gs (conj Nf (conj Zf (conj Vf Mf)))) E Fq') as (_ & _ & _ & _ & H).
  specialize (H d Md Fi). unfold close, at2 in H. cbn [coef_at] in H. fold (coef_value t e r d) in H.
  rewrite <- Qabs_opp. eapply Qle_trans; [|exact H]. apply Qle_lteq. right.
  apply Qabs_wd. ring.
Qed.
(** the terms of the remainder have distinct degrees and no quotient has a degree twice *)
Theorem C149_shape : forall n (f : poly F) (gs : list (poly F)) r qs,
  distinct f -> nonzero f -> valid_poly t e f -> (forall s, In s f -> mwf (tdeg s)) ->
  (forall g, In g gs -> distinct g /\ nonzero g /\ valid_poly t e g /\ (forall s, In s g -> mwf (tdeg s))) ->
  (forall g l, In g gs -> leading_term O g = Ok (Some l) -> (coef l : float) = fone t) ->
  divide Debug O n f gs = Ok (r, qs) ->
  (forall q s, In q qs -> In s q -> finite (coef s : float) = true) ->
  distinct r /\ nonzero r /\ valid_poly t e r /\ length qs = length gs /\ forall q, In q qs -> distinct q /\ valid_poly t e q.
Proof.
  intros n f gs r qs Nf Zf Vf Mf Cg C1 E Fq.
  assert (Fq' : Forall (fin_poly t e) qs).
  { apply Forall_forall. intros q Iq. apply Forall_forall. intros s Is. exact (Fq q s Iq Is). }
  destruct (inv_loop t G e OS f gs Cg C1 n f _ _ r qs (inv_start t e OS f gs (conj Nf (conj Zf (conj Vf Mf)))) E Fq') as (_ & (A & B & C & _) & Iq & _).
  split; [exact A|]. split; [exact B|]. split; [exact C|]. split; [exact (Forall2_len _ _ _ Iq)|].
  clear - Iq. induction Iq as [|q g qs gs H _ IH]; intros q' I; [destruct I|]. destruct I as [<-|I]; [|auto]. destruct H as (H1 & H2 & _). auto.
Qed.
End C149.
(** ** Example: 0.1 x^2 + 0.2 x + 0.1 divided by x + 0.1 over f64; the quotient has two terms, the remainder one,
    and the coefficient of x is made of two rounded products *)
Section Example.
Context (e : fenv).
Notation F := (float_impl binary64 e).
Definition df : poly F := [@mkterm F (tenth e) [2]; @mkterm F (fifth e) [1]; @mkterm F (tenth e) []].
Definition dg : poly F := [@mkterm F (fone binary64) [1]; @mkterm F (tenth e) []].
Definition fin_all (p : poly F) : bool := forallb (fun s : term F => finite (coef s : float)) p.
Example C149_hypotheses :
  (distinct df /\ nonzero df /\ valid_poly binary64 e df /\ (forall s, In s df -> mwf (tdeg s))) /\
  (distinct dg /\ nonzero dg /\ valid_poly binary64 e dg /\ (forall s, In s dg -> mwf (tdeg s))) /\
  leading_term lex_cmp dg = Ok (Some (@mkterm F (fone binary64) [1])).
Proof.
  split; [|split; [|reflexivity]]; (split; [|split; [|split]]).
  - repeat (apply NoDup_cons; [cbn; intuition discriminate|]). apply NoDup_nil.
  - repeat constructor.
  - repeat constructor; reflexivity.
  - intros s [<-|[<-|[<-|[]]]]; (split; [intros H; discriminate H|]); repeat constructor; lia.
  - repeat (apply NoDup_cons; [cbn; intuition discriminate|]). apply NoDup_nil.
  - repeat constructor.
  - repeat constructor; reflexivity.
  - intros s [<-|[<-|[]]]; (split; [intros H; discriminate H|]); repeat constructor; lia.
Qed.
Example C149_ex : exists r q : poly F, divide Debug lex_cmp 10 df [dg] = Ok (r, [q]) /\
  (forall s, In s q -> finite (coef s : float) = true) /\ finite_at binary64 e r [] /\ length q = 2 /\ length r = 1 /\
  length (pairs binary64 e [1] q dg) = 2.
Proof.
  assert (H : (x <- divide Debug lex_cmp 10 df [dg] ;;
      match x with
      | (r, [q]) => Ok (fin_all q, match coef_at r [] with Some c => Some (finite (c : float)) | None => None end, length q, length r, length (pairs binary64 e [1] q dg))
      | _ => Panic Overflow
      end) = Ok (true, Some true, 2, 1, 2)) by (vm_compute; reflexivity).
  apply bind_Ok in H as ([r qs] & E & H). destruct qs as [|q [|]]; [discriminate H| |discriminate H]. injection H as H1 H2 H3 H4 H5.
  exists r, q. split; [exact E|]. split; [|split; [|auto]].
  - unfold fin_all in H1. rewrite forallb_forall in H1. exact H1.
  - intros c Hc. rewrite Hc in H2. injection H2 as H2. exact H2.
Qed.
End Example.
Print Assumptions C149_backward.
Print Assumptions C149_shape.
