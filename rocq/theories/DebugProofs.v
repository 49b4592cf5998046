(** * The text of a Debug tree determines the tree. *)
From Coq Require Import String Ascii.
From Verif Require Import Base BaseLemmas IntModel RatModel FieldIface IntProofs RatProofs MDegModel MonoSpec MDegProofs PolyModel MatModel DisplayModel DisplayProofs DebugModel.
Local Open Scope Z_scope.

(** letters, digits and the other characters of numbers and names *)
Definition is_word (c : Z) : bool :=
  ((48 <=? c) && (c <=? 57)) || ((65 <=? c) && (c <=? 90)) || ((97 <=? c) && (c <=? 122)) || (c =? 95) || (c =? 45) || (c =? 46) || (c =? 43).
Definition word (s : chars) : Prop := s <> [] /\ forallb is_word s = true.
Definition label_ok (k : dkind) (s : chars) : Prop := match k with KStruct => forallb is_word s = true /\ s <> [] | _ => s = [] end.
Fixpoint dwf (t : dtree) : Prop :=
  match t with
  | DAtom s => word s
  | DNode k name l => match k with KList => name = [] | _ => word name /\ l <> [] end /\
      fold_right (fun x P => (label_ok k (fst x) /\ dwf (snd x)) /\ P) True l
  end.
Lemma dwf_items k l : fold_right (fun x P => (label_ok k (fst x) /\ dwf (snd x)) /\ P) True l <->
  Forall (fun x : chars * dtree => label_ok k (fst x) /\ dwf (snd x)) l.
Proof.
  induction l as [|x l IH]; cbn [fold_right]; [split; constructor|]. rewrite IH. split; [intros [A B]; constructor; auto|intros H; inversion H; auto].
Qed.
Fixpoint dtree_ind' (P : dtree -> Prop) (HA : forall s, P (DAtom s)) (HN : forall k n l, Forall (fun x => P (snd x)) l -> P (DNode k n l)) (t : dtree) : P t :=
  match t with
  | DAtom s => HA s
  | DNode k n l => HN k n l ((fix go l := match l return Forall (fun x => P (snd x)) l with [] => Forall_nil _ | x :: l' => Forall_cons x (dtree_ind' P HA HN (snd x)) (go l') end) l)
  end.

(** what may follow a value *)
Definition delim (u : chars) : Prop := nohead is_word u /\ (forall r, u <> 40 :: r) /\ (forall r, u <> 32 :: 123 :: r).
Definition opens (s : chars) : Prop := exists c r, s = c :: r /\ (is_word c = true \/ c = 91).

Lemma word_opens s u : word s -> opens (s ++ u).
Proof. intros [N F]. destruct s as [|c s]; [congruence|]. cbn in F. apply andb_true_iff in F as [F _]. exists c, (s ++ u). auto. Qed.
Lemma fmt_opens alt t u : dwf t -> opens (fmt alt t ++ u).
Proof.
  destruct t as [s|k n l]; intros W; [apply word_opens; exact W|]. destruct W as [W _]. cbn [fmt]. rewrite <- app_assoc.
  destruct k; cbn [dopen]; [| |exists 91; eexists; split; [reflexivity|auto]]; rewrite <- app_assoc; apply word_opens; apply W.
Qed.
Lemma item_opens alt k x u : label_ok k (fst x) -> dwf (snd x) -> opens (ditem k (fst x) (fmt alt (snd x)) ++ u).
Proof.
  intros L W. destruct k; cbn [ditem label_ok] in *; try (apply fmt_opens; exact W). rewrite <- app_assoc. apply word_opens. split; tauto.
Qed.

(** ** Padding *)
Definition ended (s : chars) : Prop := s = [] \/ exists s', s = s' ++ [10].
Lemma ended_cons c s : ended (c :: s) -> (if c =? 10 then ended s else s <> [] /\ ended s).
Proof.
  intros [E|(s' & E)]; [discriminate|]. destruct s' as [|c' s']; cbn [app] in E; injection E as -> E.
  - subst s. cbn. left. reflexivity.
  - assert (X : ended s) by (right; exists s'; exact E). destruct (c' =? 10); [exact X|]. split; [|exact X]. subst s. destruct s'; discriminate.
Qed.
Lemma pad_read s : forall b s' u v c, c <> 32 -> ended s -> ended s' -> (b = false -> s <> [] /\ s' <> []) ->
  pad_from b s ++ c :: u = pad_from b s' ++ c :: v -> s = s' /\ u = v.
Proof.
  induction s as [|x s IH]; intros b s' u v c C Es Es' B E.
  - destruct b; [|exfalso; apply (proj1 (B eq_refl)); reflexivity]. destruct s' as [|y s']; cbn [pad_from app] in E; [|congruence].
    injection E as ->. auto.
  - destruct s' as [|y s'].
    + destruct b; [|exfalso; apply (proj2 (B eq_refl)); reflexivity]. cbn [pad_from app] in E. congruence.
    + assert (X : x :: pad_from (x =? 10) s ++ c :: u = y :: pad_from (y =? 10) s' ++ c :: v).
      { destruct b; cbn [pad_from app] in E; [injection E as E1 E2|exact E]. congruence. }
      injection X as <- X. apply ended_cons in Es, Es'. destruct (IH (x =? 10) s' u v c) as [-> ->]; auto.
      * destruct (x =? 10); tauto.
      * destruct (x =? 10); tauto.
      * intros Z. rewrite Z in *. tauto.
Qed.
Lemma pad_from_app s : forall b t, pad_from b (s ++ 10 :: t) = pad_from b (s ++ [10]) ++ pad_from true t.
Proof.
  induction s as [|c s IH]; intros b t; cbn [app pad_from]; rewrite <- app_assoc; cbn [app]; [reflexivity|]. rewrite IH. reflexivity.
Qed.
Lemma pad_concat l : concat (map (fun s => pad (s ++ [44; 10])) l) = pad (concat (map (fun s => s ++ [44; 10]) l)).
Proof.
  induction l as [|s l IH]; [reflexivity|]. cbn [map concat]. rewrite IH. unfold pad.
  replace ((s ++ [44; 10]) ++ concat (map (fun s => s ++ [44; 10]) l)) with ((s ++ [44]) ++ 10 :: concat (map (fun s => s ++ [44; 10]) l))
    by (rewrite <- !app_assoc; reflexivity).
  rewrite pad_from_app. rewrite <- app_assoc. reflexivity.
Qed.
Lemma ended_concat l : ended (concat (map (fun s => s ++ [44; 10]) l)).
Proof.
  induction l as [|s l [E|(s' & E)]]; [left; reflexivity| |]; right; cbn [map concat]; rewrite E.
  - exists (s ++ [44]). rewrite app_nil_r, <- app_assoc. reflexivity.
  - exists ((s ++ [44; 10]) ++ s'). rewrite <- !app_assoc. reflexivity.
Qed.

(** ** Reading fields *)
Definition reads (alt : bool) (t : dtree) : Prop := forall t' u v, dwf t -> dwf t' -> delim u -> delim v -> fmt alt t ++ u = fmt alt t' ++ v -> t = t' /\ u = v.
Notation item alt k := (fun x : chars * dtree => ditem k (fst x) (fmt alt (snd x))).
Lemma item_reads alt k x y u v : reads alt (snd x) -> label_ok k (fst x) -> dwf (snd x) -> label_ok k (fst y) -> dwf (snd y) -> delim u -> delim v ->
  item alt k x ++ u = item alt k y ++ v -> x = y /\ u = v.
Proof.
  intros R Lx Wx Ly Wy Du Dv E. destruct x as [n t], y as [n' t']. cbn [fst snd] in *.
  destruct k; cbn [ditem label_ok] in *; subst; try (destruct (R _ _ _ Wx Wy Du Dv E); subst; auto).
  rewrite <- !app_assoc in E. apply (span_eq is_word) in E; [|tauto|tauto|reflexivity|reflexivity]. destruct E as [-> E].
  cbn in E. injection E as E. destruct (R _ _ _ Wx Wy Du Dv E); subst; auto.
Qed.
Lemma delim_cons c u : is_word c = false -> c <> 40 -> c <> 32 -> delim (c :: u).
Proof. intros A B C. split; [exact A|]. split; intros r E; congruence. Qed.
Lemma close_delim alt k u : delim (dclose alt k ++ u).
Proof.
  destruct alt, k; cbn; try (apply delim_cons; [reflexivity|lia|lia]). split; [reflexivity|]. split; intros r E; discriminate.
Qed.
Lemma close_head alt k u v : opens v -> dclose alt k ++ u = v -> False.
Proof.
  intros (c & r & -> & H) E. destruct alt, k; cbn in E; injection E as E _; subst c; destruct H as [H|H]; cbn in H; discriminate.
Qed.
Lemma close_comma alt k u v : dclose alt k ++ u = 44 :: v -> False.
Proof. destruct alt, k; discriminate. Qed.

Notation items k l := (Forall (fun x : chars * dtree => label_ok k (fst x) /\ dwf (snd x)) l).
Lemma flat_reads k l : Forall (fun x => reads false (snd x)) l -> items k l -> forall l' u v, items k l' ->
  join (map (item false k) l) ++ dclose false k ++ u = join (map (item false k) l') ++ dclose false k ++ v -> l = l' /\ u = v.
Proof.
  intros R. induction R as [|x l Rx R IH]; intros W l' u v W' E.
  - destruct l' as [|y l']; [cbn in E; apply app_inv_head in E; auto|]. exfalso. inversion W' as [|? ? [L Wy] _]; subst. cbn [map join app] in E.
    refine (close_head false k u _ _ E). destruct (map (item false k) l'); [|rewrite <- app_assoc]; apply item_opens; assumption.
  - inversion W as [|? ? [L Wx] Wl]; subst. destruct l' as [|y l'].
    + exfalso. cbn [map join app] in E. symmetry in E. refine (close_head false k v _ _ E).
      destruct (map (item false k) l); [|rewrite <- app_assoc]; apply item_opens; assumption.
    + inversion W' as [|? ? [L' Wy] Wl']; subst.
      assert (X : forall z m w, exists t, join (map (item false k) (z :: m)) ++ dclose false k ++ w = item false k z ++ t /\ delim t /\
        (m = [] /\ t = dclose false k ++ w \/ m <> [] /\ t = 44 :: 32 :: join (map (item false k) m) ++ dclose false k ++ w)).
      { intros z m w. destruct m as [|m0 m].
        - exists (dclose false k ++ w). split; [reflexivity|]. split; [apply close_delim|]. auto.
        - exists (44 :: 32 :: join (map (item false k) (m0 :: m)) ++ dclose false k ++ w). split; [|split; [apply delim_cons; [reflexivity|lia|lia]|right; split; [discriminate|reflexivity]]].
          change (join (map (item false k) (z :: m0 :: m))) with (item false k z ++ 44 :: 32 :: join (map (item false k) (m0 :: m))). rewrite <- app_assoc. reflexivity. }
      destruct (X x l u) as (t & Et & Dt & Ct), (X y l' v) as (t' & Et' & Dt' & Ct'). rewrite Et, Et' in E.
      apply (item_reads false k x y t t' Rx L Wx L' Wy Dt Dt') in E as [<- <-].
      destruct Ct as [[-> ->]|[N ->]], Ct' as [[-> C]|[N' C]].
      * apply app_inv_head in C. auto.
      * exfalso. exact (close_comma _ _ _ _ C).
      * exfalso. exact (close_comma _ _ _ _ (eq_sym C)).
      * injection C as C. destruct (IH Wl l' u v Wl' C). subst. auto.
Qed.
Lemma pretty_reads k l : Forall (fun x => reads true (snd x)) l -> items k l -> forall l', items k l' ->
  concat (map (fun s => s ++ [44; 10]) (map (item true k) l)) = concat (map (fun s => s ++ [44; 10]) (map (item true k) l')) -> l = l'.
Proof.
  intros R. induction R as [|x l Rx R IH]; intros W l' W' E.
  - destruct l' as [|y l']; [reflexivity|]. exfalso. inversion W' as [|? ? [L Wy] _]; subst. cbn [map concat] in E.
    destruct (item_opens true k y [44; 10] L Wy) as (c & r & Q & _). rewrite Q in E. discriminate.
  - inversion W as [|? ? [L Wx] Wl]; subst. destruct l' as [|y l'].
    + exfalso. cbn [map concat] in E. destruct (item_opens true k x [44; 10] L Wx) as (c & r & Q & _). rewrite Q in E. discriminate.
    + inversion W' as [|? ? [L' Wy] Wl']; subst. cbn [map concat] in E. rewrite <- !app_assoc in E.
      apply (item_reads true k x y) in E; try assumption; [|apply delim_cons; [reflexivity|lia|lia]|apply delim_cons; [reflexivity|lia|lia]].
      destruct E as [<- E]. cbn [app] in E. injection E as E. rewrite (IH Wl l' Wl' E). reflexivity.
Qed.
Lemma body_reads alt k l : Forall (fun x => reads alt (snd x)) l -> items k l -> forall l' u v, items k l' ->
  dbody alt (map (item alt k) l) ++ dclose alt k ++ u = dbody alt (map (item alt k) l') ++ dclose alt k ++ v -> l = l' /\ u = v.
Proof.
  intros R W l' u v W' E. destruct alt; [|exact (flat_reads k l R W l' u v W' E)]. unfold dbody in E.
  assert (C : forall w, exists c, c <> 32 /\ c <> 10 /\ dclose true k ++ w = c :: w).
  { intros w. destruct k; cbn; eexists; (split; [|split; [|reflexivity]]); lia. }
  assert (C' : exists c, c <> 32 /\ c <> 10 /\ forall w, dclose true k ++ w = c :: w).
  { destruct k; cbn; eexists; (split; [|split; [|intros; reflexivity]]); lia. }
  clear C. destruct C' as (c & C1 & C2 & C3). rewrite !C3 in E.
  assert (X : forall m : list (chars * dtree), match map (item true k) m with [] => [] | _ :: _ => 10 :: concat (map (fun s => pad (s ++ [44; 10])) (map (item true k) m)) end =
    match m with [] => [] | _ => 10 :: pad (concat (map (fun s => s ++ [44; 10]) (map (item true k) m))) end).
  { intros m. rewrite <- pad_concat. destruct m; reflexivity. }
  rewrite !X in E. clear X. destruct l as [|x l], l' as [|y l']; cbn [app] in E; [injection E; auto|congruence|congruence|].
  injection E as E. apply pad_read in E; [|exact C1|apply (ended_concat (map (item true k) (x :: l)))|apply (ended_concat (map (item true k) (y :: l')))|discriminate]. destruct E as [E <-].
  split; [|reflexivity]. exact (pretty_reads k (x :: l) R W (y :: l') W' E).
Qed.

Theorem fmt_reads alt t : reads alt t.
Proof.
  induction t as [s|k n l IH] using dtree_ind'; intros t' u v W W' Du Dv E.
  - destruct t' as [s'|k' n' l'].
    + destruct (span_eq is_word s s' u v (proj2 W) (proj2 W') (proj1 Du) (proj1 Dv) E). subst. auto.
    + exfalso. cbn [fmt] in E. destruct W' as [W' _]. rewrite <- !app_assoc in E. destruct k'; cbn [dopen] in E.
      * rewrite <- app_assoc in E. apply (span_eq is_word) in E; [|apply W|apply W'|apply Du|reflexivity]. destruct E as [_ E]. exact (proj1 (proj2 Du) _ E).
      * rewrite <- app_assoc in E. apply (span_eq is_word) in E; [|apply W|apply W'|apply Du|destruct alt; reflexivity]. destruct E as [_ E].
        destruct alt; exact (proj2 (proj2 Du) _ E).
      * destruct W as [N F]. destruct s as [|c s]; [congruence|]. cbn in E, F. injection E as -> _. discriminate.
  - destruct t' as [s'|k' n' l'].
    + exfalso. cbn [fmt] in E. destruct W as [W _]. symmetry in E. rewrite <- !app_assoc in E. destruct k; cbn [dopen] in E.
      * rewrite <- app_assoc in E. apply (span_eq is_word) in E; [|apply W'|apply W|apply Dv|reflexivity]. destruct E as [_ E]. exact (proj1 (proj2 Dv) _ E).
      * rewrite <- app_assoc in E. apply (span_eq is_word) in E; [|apply W'|apply W|apply Dv|destruct alt; reflexivity]. destruct E as [_ E].
        destruct alt; exact (proj2 (proj2 Dv) _ E).
      * destruct W' as [N F]. destruct s' as [|c s]; [congruence|]. cbn in E, F. injection E as -> _. discriminate.
    + cbn [fmt] in E. destruct W as [W I], W' as [W' I']. apply dwf_items in I, I'. rewrite <- !app_assoc in E.
      assert (X : k = k' /\ n = n' /\ dbody alt (map (item alt k) l) ++ dclose alt k ++ u = dbody alt (map (item alt k') l') ++ dclose alt k' ++ v).
      { destruct k, k'; cbn [dopen] in E; rewrite <- ?app_assoc in E.
        - apply (span_eq is_word) in E; [|apply W|apply W'|reflexivity|reflexivity]. destruct E as [-> E]. cbn in E. injection E as E. auto.
        - exfalso. apply (span_eq is_word) in E; [|apply W|apply W'|reflexivity|destruct alt; reflexivity]. destruct E as [_ E]. destruct alt; discriminate.
        - exfalso. destruct (word_opens n (str "(" ++ dbody alt (map (item alt KTuple) l) ++ dclose alt KTuple ++ u) (proj1 W)) as (c & r & Q & [H|H]);
            destruct n as [|c0 n]; [apply (proj1 (proj1 W)); reflexivity| |apply (proj1 (proj1 W)); reflexivity|];
            cbn in E; injection E as -> _; destruct W as [[_ W] _]; cbn in W; discriminate.
        - exfalso. apply (span_eq is_word) in E; [|apply W|apply W'|destruct alt; reflexivity|reflexivity]. destruct E as [_ E]. destruct alt; discriminate.
        - apply (span_eq is_word) in E; [|apply W|apply W'|destruct alt; reflexivity|destruct alt; reflexivity]. destruct E as [-> E]. apply app_inv_head in E. auto.
        - exfalso. destruct n as [|c0 n]; [apply (proj1 (proj1 W)); reflexivity|]. cbn in E; injection E as -> _; destruct W as [[_ W] _]; cbn in W; discriminate.
        - exfalso. destruct n' as [|c0 n']; [apply (proj1 (proj1 W')); reflexivity|]. cbn in E; injection E as <- _; destruct W' as [[_ W'] _]; cbn in W'; discriminate.
        - exfalso. destruct n' as [|c0 n']; [apply (proj1 (proj1 W')); reflexivity|]. cbn in E; injection E as <- _; destruct W' as [[_ W'] _]; cbn in W'; discriminate.
        - apply app_inv_head in E. subst. auto. }
      destruct X as (<- & <- & X). destruct (body_reads alt k l IH I l' u v I' X) as [-> ->]. auto.
Qed.
(** a list may be followed by anything *)
Lemma list_reads alt l l' u v : items KList l -> items KList l' -> fmt alt (DNode KList [] l) ++ u = fmt alt (DNode KList [] l') ++ v -> l = l' /\ u = v.
Proof.
  intros I I' E. cbn [fmt] in E. rewrite <- !app_assoc in E. apply app_inv_head in E. apply (body_reads alt KList l); try assumption.
  apply Forall_forall. intros x _. apply fmt_reads.
Qed.
Lemma fmt_inj alt t t' : dwf t -> dwf t' -> fmt alt t = fmt alt t' -> t = t'.
Proof.
  intros W W' E. destruct (fmt_reads alt t t' [] [] W W'); [| |rewrite E; reflexivity|assumption]; (split; [exact I|split; intros r Q; discriminate]).
Qed.
