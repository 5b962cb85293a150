(** Outputs of wrapped functions that are storch tensors already. *)
From Coq Require Import String List Arith Bool Lia.
From Verif Require Import Base Torch Plates Wrap SpecTensor SpecWrap CallProofs CallProofs2.
Import ListNotations.
Open Scope nat_scope.
Open Scope list_scope.

Section OutputProofs.
Context {V : Type}.
Variable veq : V -> V -> bool.
Variable anc_unwrap : plate V -> stensor V -> res (stensor V).
Notation plate := (plate V).

(** [l] has a plate of the name of [p] that is at least as new. *)
Definition kept (l : list plate) (p : plate) : Prop := exists q, In q l /\ pname q = pname p /\ variable_index p <= variable_index q.

Lemma kept_trans : forall l m p, kept l p -> (forall q, In q l -> kept m q) -> kept m p.
Proof. intros l m p [q [H1 [H2 H3]]] H. destruct (H q H1) as [x [X1 [X2 X3]]]. exists x. split; [exact X1|]. split; [congruence|lia]. Qed.

Lemma merge_plate_kept : forall (new : list plate) p l, merge_plate new p = Ok l ->
  (forall x, In x l -> x = p \/ In x new) /\ (forall x, In x new -> kept l x) /\ kept l p.
Proof.
  intros new p l H. unfold merge_plate in H.
  match type of H with context [fold_left ?f new _] => set (step := f) in H end.
  assert (F : forall m e, fold_left step m (Err e) = Err e) by (induction m; intros e; [reflexivity|apply IHm]).
  assert (G : forall m k b l' b', fold_left step m (Ok (k, b)) = Ok (l', b') ->
    (forall x, In x l' -> x = p \/ In x k \/ In x m) /\ (forall x, In x k \/ In x m -> kept l' x) /\
    (b' = true -> b = false -> kept l' p)).
  { induction m as [|q m IH]; intros k b l' b' E; cbn [fold_left] in E.
    - injection E as <- <-. split; [auto|]. split; [|intros; congruence]. intros x [Hx|[]]. exists x. auto.
    - unfold step at 2 in E. cbn [bind] in E. destruct (String.eqb (pname p) (pname q)) eqn:En.
      + apply String.eqb_eq in En. assert (S : forall y, (y = p \/ y = q) -> variable_index p <= variable_index y -> variable_index q <= variable_index y ->
          fold_left step m (Ok (k ++ [y], true)) = Ok (l', b') ->
          (forall x, In x l' -> x = p \/ In x k \/ In x (q :: m)) /\ (forall x, In x k \/ In x (q :: m) -> kept l' x) /\ (b' = true -> b = false -> kept l' p)).
        { intros y Hy L1 L2 Ey. destruct (IH _ _ _ _ Ey) as [A [B _]].
          assert (Ny : pname y = pname p) by (destruct Hy; subst; congruence).
          assert (Ky : kept l' y) by (apply B; left; apply in_app_iff; right; now left).
          split; [|split].
          - intros x Hx. destruct (A x Hx) as [->|[Hk|Hm]]; [now left| |right; right; now right]. apply in_app_iff in Hk.
            destruct Hk as [Hk|[<-|[]]]; [right; now left|]. destruct Hy as [->| ->]; [now left|right; right; now left].
          - intros x [Hk|[<-|Hm]].
            + apply B. left. apply in_app_iff. now left.
            + destruct Ky as [z [Z1 [Z2 Z3]]]. exists z. split; [exact Z1|]. split; [congruence|lia].
            + apply B. now right.
          - intros _ _. destruct Ky as [z [Z1 [Z2 Z3]]]. exists z. split; [exact Z1|]. split; [congruence|lia]. }
        unfold variable_index in S. destruct (pcls p) as [|vi ls] eqn:Ep.
        * apply (S q); auto; lia.
        * destruct (pcls q) as [|vi' ls'] eqn:Eq; [rewrite F in E; discriminate|]. destruct (Nat.ltb_spec vi' vi).
          -- apply (S p); [now left|rewrite Ep; lia|rewrite Ep; lia|exact E].
          -- apply (S q); [now right|rewrite Eq; lia|rewrite Eq; lia|exact E].
      + destruct (IH _ _ _ _ E) as [A [B D]]. split; [|split; [|exact D]].
        * intros x Hx. destruct (A x Hx) as [->|[Hk|Hm]]; [now left| |right; right; now right]. apply in_app_iff in Hk.
          destruct Hk as [Hk|[<-|[]]]; [right; now left|right; right; now left].
        * intros x [Hk|[<-|Hm]]; apply B; [left; apply in_app_iff; now left|left; apply in_app_iff; right; now left|now right]. }
  destruct (fold_left step new (Ok ([], false))) as [[l' b']|] eqn:E; [|discriminate]. cbn [bind] in H. destruct (G _ _ _ _ _ E) as [A [B D]].
  destruct b'; injection H as <-.
  - split; [intros x Hx; destruct (A x Hx) as [|[[]|]]; auto|]. split; [intros x Hx; apply B; now right|now apply D].
  - split; [intros x [<-|Hx]; auto; destruct (A x Hx) as [|[[]|]]; auto|]. split.
    + intros x Hx. destruct (B x (or_intror Hx)) as [z [Z1 Z2]]. exists z. split; [now right|exact Z2].
    + exists p. split; [now left|]. split; [reflexivity|lia].
Qed.

Lemma merge_plates_kept : forall (ps new l : list plate), foldM (@merge_plate V) ps new = Ok l ->
  (forall x, In x l -> In x ps \/ In x new) /\ (forall x, In x ps \/ In x new -> kept l x).
Proof.
  induction ps as [|p ps IH]; intros new l H; cbn [foldM] in H.
  - injection H as <-. split; [auto|]. intros x [[]|Hx]. exists x. auto.
  - destruct (merge_plate new p) as [m|] eqn:E; [|discriminate]. cbn [bind] in H. destruct (merge_plate_kept _ _ _ E) as [A [B D]].
    destruct (IH _ _ H) as [A' B']. split.
    + intros x Hx. destruct (A' x Hx) as [Hp|Hm]; [left; now right|]. destruct (A x Hm) as [->|Hn]; [left; now left|now right].
    + intros x [[<-|Hp]|Hn]; [apply (kept_trans m)|apply B'; now left|apply (kept_trans m)]; auto.
Qed.

(** The result has the values of the output, the arguments as only parents, and the newest of all plates. *)
Theorem storch_output : forall fn args kwargs o base r, call_tensors args kwargs <> [] ->
  (forall a k out, fn a k = Ok out -> exists inner, out = PT inner) ->
  handle_deterministic veq anc_unwrap top_ctx fn args kwargs [] o base = Ok (PT r) ->
  exists args' kwargs' plates inner, prepare_args veq anc_unwrap args kwargs o = Ok (args', kwargs', call_tensors args kwargs, plates) /\
    fn args' kwargs' = Ok (PT inner) /\ s_stochastic inner = false /\ st r = st inner /\ sparents r = map sid (call_tensors args kwargs) /\
    (forall p, In p (splates r) -> In p plates \/ In p (splates inner)) /\
    (forall p, In p plates \/ In p (splates inner) -> exists q, In q (splates r) /\ pname q = pname p /\ variable_index p <= variable_index q).
Proof.
  intros fn args kwargs o base r Hne Hf H. unfold handle_deterministic in H. cbn [c_stochastic top_ctx] in H.
  destruct (prepare_args veq anc_unwrap args kwargs o) as [[[[a k] ps] pl]|] eqn:E; [|discriminate]. cbn [bind] in H. pose proof (prepare_args_parents _ _ _ _ _ _ _ _ _ E) as Ep. subst ps.
  destruct (call_tensors args kwargs) as [|t0 ts0]; [congruence|]. set (ts := t0 :: ts0) in *.
  destruct (fn a k) as [out|] eqn:Ef; [|discriminate]. cbn [bind c_ignore] in H. destruct (Hf _ _ _ Ef) as [inner ->].
  cbn [prepare_outputs] in H. destruct (s_stochastic inner) eqn:Es; [discriminate|].
  assert (Ef0 : filter (fun p : plate => negb (existsb (String.eqb (pname p)) [])) pl = pl) by (clear; induction pl as [|x l IH]; [reflexivity|]; simpl; f_equal; exact IH).
  rewrite Ef0 in H. destruct (foldM merge_plate (rev pl) (splates inner)) as [np|] eqn:Em; [|discriminate]. cbn [bind] in H.
  unfold mk_tensor in H. destruct (check_plates _ _ _ _) as [bd|]; [|discriminate]. cbn [bind] in H. injection H as <-. cbn [st sparents splates].
  exists a, k, pl, inner. destruct (merge_plates_kept _ _ _ Em) as [A B]. repeat split; auto.
  - intros p Hx. destruct (A p Hx) as [Hr|]; [left; now apply in_rev|now right].
  - intros p Hx. apply B. destruct Hx as [Hx|]; [left; now apply -> in_rev|now right].
Qed.
End OutputProofs.
