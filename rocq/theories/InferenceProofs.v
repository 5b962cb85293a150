(** Independent tensors, gathered samples and registered costs. *)
From Coq Require Import String List Arith Bool Lia.
From Verif Require Import Base Torch Plates Wrap Inference ListLemmas IndexLemmas SpecTensor SpecWrap WrapProofs AlignProofs
  CallProofs CallProofs2 OpProofs.
Import ListNotations.

Section InferenceProofs.
Context {V : Type}.
Variable veq : V -> V -> bool.
Variable anc_unwrap : plate V -> stensor V -> res (stensor V).
Variable recip : nat -> V.
Notation plate := (plate V).
Notation stensor := (stensor V).
Notation N l := (map (@pname V) l).

Lemma not_named : forall name (l : list plate), ~ In name (N l) -> existsb (fun p => String.eqb (pname p) name) l = false.
Proof.
  intros name l H. destruct (existsb _ l) eqn:E; auto. apply existsb_exists in E as [p [Hp E]].
  apply String.eqb_eq in E. exfalso. apply H. rewrite <- E. now apply in_map.
Qed.
Lemma named : forall name (l : list plate), In name (N l) -> existsb (fun p => String.eqb (pname p) name) l = true.
Proof.
  intros name l H. apply in_map_iff in H as [p [<- Hp]]. apply existsb_exists. exists p. split; auto. apply String.eqb_refl.
Qed.

Lemma independent_ok : forall id (t : ten V) par (l : list plate) name w n ev,
  NoDup (N l) -> (forall p, In p l -> 1 <= pn p) -> ~ In name (N l) -> 2 <= n -> shape t = n :: map pn (wide l) ++ ev ->
  exists r, independent_tensor recip id t par l name w = (splates r, Ok r) /\ sid r = id /\ st r = t /\
    splates r = new_plate recip name n l w :: l /\ sparents r = par /\ s_event_shape r = ev /\ wf r.
Proof.
  intros id t par l name w n ev ND Hpos Hn H2 Hs. unfold independent_tensor. rewrite Hs. rewrite not_named by auto.
  destruct (mk_tensor_good id t par (new_plate recip name n l w :: l) true ev) as [r [E [A1 [A2 [A3 [A4 [A5 [A6 A7]]]]]]]].
  - simpl. constructor; auto.
  - simpl. intros p [<-|Hp]; simpl; auto. lia.
  - simpl. destruct (Nat.ltb_spec 1 n); [|lia]. exact Hs.
  - exists r. rewrite A3, E. auto 10.
Qed.

Lemma wide_new : forall name n (l0 l : list plate) w, 2 <= n -> wide (new_plate recip name n l0 w :: l) = new_plate recip name n l0 w :: wide l.
Proof. intros. unfold wide. cbn [filter new_plate pn]. destruct (Nat.ltb_spec 1 n); [reflexivity|lia]. Qed.

Lemma set_plates_splates : forall (a : stensor) l, splates (set_plates a l) = l.
Proof. reflexivity. Qed.

Lemma outside_top : outside top_ctx = true.
Proof. reflexivity. Qed.

Lemma swapl_front : forall {A} (x y : A) mid post, swapl (S (length mid)) 0 (x :: mid ++ y :: post) = y :: mid ++ x :: post.
Proof.
  intros A x y mid post. unfold swapl. simpl. rewrite nth_error_app2 by lia. rewrite Nat.sub_diag. simpl. f_equal.
  induction mid; simpl; congruence.
Qed.

Lemma transpose_front : forall dim (t : ten V), 0 < dim -> dim < length (shape t) ->
  to_front dim t = Ok (mkten (swapl dim 0 (shape t)) (fun idx => el t (swapl dim 0 idx))).
Proof.
  intros dim t H0 H. unfold to_front. destruct (Nat.eqb_spec dim 0); [lia|]. unfold transpose, ndim.
  assert (0 < length (shape t)) by lia. destruct (Nat.ltb_spec dim (length (shape t))); [|lia].
  destruct (Nat.ltb_spec 0 (length (shape t))); [|lia]. reflexivity.
Qed.

(** Without plates dimension [dim] goes to the front and the first dimension takes its place. *)
Lemma raw_front : forall (t : ten V) name w id n ev, shape t = n :: ev -> 2 <= n ->
  exists r, denote_independent_raw recip top_ctx t 0 name w id = Ok r /\ wf r /\
    splates r = [new_plate recip name n [] w] /\ s_event_shape r = ev /\ sparents r = [] /\
    forall s e, den r s e = el t (s name :: e).
Proof.
  intros t name w id n ev Hs H2. unfold denote_independent_raw. rewrite outside_top. simpl.
  destruct (independent_ok id t [] [] name w n ev) as [r [E [A1 [A2 [A3 [A4 [A5 A6]]]]]]]; auto.
  { constructor. } { intros p []. }
  rewrite E. exists r. simpl. repeat split; auto; try apply A6.
  intros s e. unfold den. rewrite A3, A2. simpl. destruct (Nat.ltb_spec 1 n); [|lia]. reflexivity.
Qed.

Lemma raw_other : forall (t : ten V) name w id d0 mid n post, shape t = d0 :: mid ++ n :: post -> 2 <= n ->
  exists r, denote_independent_raw recip top_ctx t (S (length mid)) name w id = Ok r /\ wf r /\
    splates r = [new_plate recip name n [] w] /\ s_event_shape r = mid ++ d0 :: post /\ sparents r = [] /\
    forall s x m p, length m = length mid -> den r s (m ++ x :: p) = el t (x :: m ++ s name :: p).
Proof.
  intros t name w id d0 mid n post Hs H2. unfold denote_independent_raw. rewrite outside_top. cbn [negb].
  rewrite transpose_front by (rewrite ?Hs; simpl; rewrite ?app_length; simpl; lia). cbn [bind].
  destruct (independent_ok id (mkten (swapl (S (length mid)) 0 (shape t)) (fun idx => el t (swapl (S (length mid)) 0 idx)))
     [] [] name w n (mid ++ d0 :: post)) as [r [E [A1 [A2 [A3 [A4 [A5 A6]]]]]]]; auto.
  { constructor. } { intros p []. } { simpl. rewrite Hs. apply swapl_front. }
  rewrite E. exists r. cbn [snd]. repeat split; auto; try apply A6.
  intros s x m p Hm. unfold den. rewrite A3, A2. simpl. destruct (Nat.ltb_spec 1 n); [|lia]. simpl.
  rewrite <- Hm. now rewrite swapl_front.
Qed.

(** The same on a storch tensor without plate dimensions. *)
Lemma plateless_front : forall (a : stensor) name w id n ev, wf a -> wide (splates a) = [] -> ~ In name (N (splates a)) ->
  s_event_shape a = n :: ev -> 2 <= n ->
  exists r, denote_independent recip top_ctx a 0 name w id = (set_plates a (splates r), Ok r) /\ wf r /\
    splates r = new_plate recip name n (splates a) w :: splates a /\ s_event_shape r = ev /\ sparents r = [sid a] /\
    forall s e, den r s e = den a s (s name :: e).
Proof.
  intros a name w id n ev Hw Hwide Hn Hs H2. unfold denote_independent. rewrite outside_top. cbn [negb to_front Nat.eqb].
  destruct (independent_ok id (st a) [sid a] (splates a) name w n ev) as [r [E [A1 [A2 [A3 [A4 [A5 A6]]]]]]]; auto.
  { apply Hw. } { apply (wf_pos a Hw). } { rewrite (wf_shape a Hw), Hwide. simpl. exact Hs. }
  rewrite E. exists r. repeat split; auto; try apply A6.
  intros s e. unfold den. rewrite A3, A2, wide_new, Hwide by auto. reflexivity.
Qed.

Lemma plateless_other : forall (a : stensor) name w id d0 mid n post, wf a -> wide (splates a) = [] ->
  ~ In name (N (splates a)) -> s_event_shape a = d0 :: mid ++ n :: post -> 2 <= n ->
  exists r, denote_independent recip top_ctx a (S (length mid)) name w id = (set_plates a (splates r), Ok r) /\ wf r /\
    splates r = new_plate recip name n (splates a) w :: splates a /\ s_event_shape r = mid ++ d0 :: post /\
    sparents r = [sid a] /\
    forall s x m p, length m = length mid -> den r s (m ++ x :: p) = den a s (x :: m ++ s name :: p).
Proof.
  intros a name w id d0 mid n post Hw Hwide Hn Hs H2. unfold denote_independent. rewrite outside_top. cbn [negb].
  assert (Hsh : shape (st a) = d0 :: mid ++ n :: post).
  { rewrite (wf_shape a Hw), Hwide. exact Hs. }
  rewrite transpose_front by (rewrite ?Hsh; simpl; rewrite ?app_length; simpl; lia).
  destruct (independent_ok id (mkten (swapl (S (length mid)) 0 (shape (st a))) (fun idx => el (st a) (swapl (S (length mid)) 0 idx)))
     [sid a] (splates a) name w n (mid ++ d0 :: post)) as [r [E [A1 [A2 [A3 [A4 [A5 A6]]]]]]]; auto.
  { apply Hw. } { apply (wf_pos a Hw). } { simpl. rewrite Hsh, Hwide. apply swapl_front. }
  rewrite E. exists r. repeat split; auto; try apply A6.
  intros s x m p Hm. unfold den. rewrite A3, A2, wide_new, Hwide by auto. cbn [el map app pname new_plate].
  rewrite <- Hm. now rewrite swapl_front.
Qed.

(** One plate dimension, and the dimension right behind it. *)
Lemma one_plate : forall (a : stensor) p name w id n ev, wf a -> wide (splates a) = [p] -> ~ In name (N (splates a)) ->
  s_event_shape a = n :: ev -> 2 <= n ->
  exists r, denote_independent recip top_ctx a 1 name w id = (set_plates a (splates r), Ok r) /\ wf r /\
    splates r = new_plate recip name n (splates a) w :: splates a /\ s_event_shape r = ev /\ sparents r = [sid a] /\
    forall s e, den r s e = den a s (s name :: e).
Proof.
  intros a p name w id n ev Hw Hwide Hn Hs H2. unfold denote_independent. rewrite outside_top. cbn [negb].
  assert (Hsh : shape (st a) = pn p :: n :: ev) by (rewrite (wf_shape a Hw), Hwide, Hs; reflexivity).
  rewrite transpose_front by (rewrite ?Hsh; simpl; lia).
  destruct (independent_ok id (mkten (swapl 1 0 (shape (st a))) (fun idx => el (st a) (swapl 1 0 idx)))
     [sid a] (splates a) name w n ev) as [r [E [A1 [A2 [A3 [A4 [A5 A6]]]]]]]; auto.
  { apply Hw. } { apply (wf_pos a Hw). } { simpl. rewrite Hsh, Hwide. reflexivity. }
  rewrite E. exists r. repeat split; auto; try apply A6.
  intros s e. unfold den. rewrite A3, A2, wide_new, Hwide by auto. reflexivity.
Qed.

(** The argument is changed by every call that gets as far as the constructor. *)
Lemma argument_changes : forall c (a : stensor) dim name w id r a', denote_independent recip c a dim name w id = (a', Ok r) ->
  splates a' = splates r /\ length (splates a') = S (length (splates a)) /\ st a' = st a.
Proof.
  intros c a dim name w id r a' H. unfold denote_independent in H. destruct (negb (outside c)); [discriminate|].
  destruct (to_front dim (st a)) as [t|]; [|discriminate].
  unfold independent_tensor in H. destruct (shape t) as [|n sh]; [discriminate|].
  destruct (existsb _ (splates a)); [discriminate|]. injection H as <- H.
  apply mk_tensor_fields in H. destruct H as [_ [_ [H _]]]. simpl. rewrite H. auto.
Qed.

Lemma argument_broken : forall (a : stensor) dim name w id r a', wf a ->
  denote_independent recip top_ctx a dim name w id = (a', Ok r) -> 2 <= nth dim (shape (st a)) 0 -> ~ wf a'.
Proof.
  intros a dim name w id r a' Hw H H2 Hw'. unfold denote_independent in H. rewrite outside_top in H. cbn [negb] in H.
  destruct (to_front dim (st a)) as [t|] eqn:F; [|discriminate].
  assert (Hd : hd 0 (shape t) = nth dim (shape (st a)) 0).
  { unfold to_front in F. destruct (Nat.eqb_spec dim 0) as [->|Hd].
    - injection F as <-. destruct (shape (st a)); reflexivity.
    - unfold transpose in F. destruct ((dim <? ndim (st a)) && (0 <? ndim (st a))) eqn:L; [|discriminate].
      apply andb_prop in L as [L1 L2]. apply Nat.ltb_lt in L1, L2. injection F as <-. simpl.
      pose proof (nth_error_swapl dim 0 (shape (st a)) 0 L1 L2) as X. simpl in X.
      destruct (swapl dim 0 (shape (st a))) as [|h q]; simpl in X.
      + symmetry in X. apply nth_error_None in X. unfold ndim in L1. lia.
      + symmetry in X. apply nth_error_nth with (d := 0) in X. auto. }
  unfold independent_tensor in H. destruct (shape t) as [|n sh]; [discriminate|]. simpl in Hd. subst n.
  destruct (existsb _ (splates a)); [discriminate|]. injection H as <- H.
  pose proof (wf_dims _ Hw') as D. pose proof (wf_dims _ Hw) as D0. cbn [set_plates s_plate_dims splates] in D.
  rewrite D0 in D. unfold wide in D at 2. cbn [filter new_plate pn] in D.
  destruct (Nat.ltb_spec 1 (nth dim (shape (st a)) 0)); [|lia]. simpl in D.
  change (filter (fun p : plate => 1 <? pn p) (splates a)) with (wide (splates a)) in D. lia.
Qed.

(** Two plates of different sizes, and an event dimension: always rejected. *)
Lemma check_skip : forall (shp : list nat) (l : list plate) names k d,
  (forall p, In p l -> 1 <= pn p) -> (exists p, hd_error (wide l) = Some p /\ nth_error shp k = Some d /\ d <> pn p) ->
  check_plates shp l names k = Err ValueError.
Proof.
  intros shp l. induction l as [|q l IH]; intros names k d Hpos [p [H1 [H2 H3]]]; [discriminate|].
  simpl. destruct (existsb _ names); auto. assert (1 <= pn q) by (apply Hpos; left; auto).
  destruct (Nat.eqb_spec (pn q) 1) as [E|E].
  - eapply (IH _ _ d); [intros x Hx; apply Hpos; right; auto|]. exists p. unfold wide in *. simpl in H1.
    destruct (Nat.ltb_spec 1 (pn q)); [lia|]. auto.
  - unfold wide in H1. simpl in H1. destruct (Nat.ltb_spec 1 (pn q)); [|lia]. injection H1 as ->.
    rewrite H2. destruct (Nat.eqb_spec d (pn p)); [lia|]. reflexivity.
Qed.

Lemma two_plates_fail : forall (a : stensor) p q rest dim name w id, wf a -> wide (splates a) = p :: q :: rest -> pn p <> pn q ->
  length (wide (splates a)) <= dim -> 2 <= nth dim (shape (st a)) 0 ->
  exists a' e, denote_independent recip top_ctx a dim name w id = (a', Err e).
Proof.
  intros a p q rest dim name w id Hw Hwide Hpq Hdim H2. unfold denote_independent. rewrite outside_top. cbn [negb].
  assert (Hlt : dim < length (shape (st a))).
  { destruct (Nat.lt_ge_cases dim (length (shape (st a)))); auto. rewrite nth_overflow in H2; lia. }
  rewrite Hwide in Hdim. simpl in Hdim.
  unfold to_front. destruct (Nat.eqb_spec dim 0) as [Z|Z]; [lia|]. unfold transpose, ndim.
  assert (H0 : 0 < length (shape (st a))) by lia.
  rewrite (proj2 (Nat.ltb_lt _ _) Hlt), (proj2 (Nat.ltb_lt _ _) H0). cbn [andb].
  unfold independent_tensor. cbn [shape].
  pose proof (nth_error_swapl dim 0 (shape (st a)) 0 Hlt H0) as X0.
  pose proof (nth_error_swapl dim 0 (shape (st a)) 1 Hlt H0) as X1. simpl in X0.
  assert (Y1 : nth_error (shape (st a)) 1 = Some (pn q)) by (rewrite (wf_shape a Hw), Hwide; reflexivity).
  replace (1 =? 0) with false in X1 by reflexivity. destruct (Nat.eqb_spec 1 dim) as [Z1|Z1]; [lia|]. rewrite Y1 in X1.
  destruct (swapl dim 0 (shape (st a))) as [|n sh] eqn:Es.
  { eexists _, _. reflexivity. }
  destruct (existsb _ (splates a)) eqn:Ex. { eexists _, _. reflexivity. }
  eexists _, ValueError. f_equal. unfold mk_tensor. cbn [shape check_plates existsb new_plate pname pn].
  assert (Hn : n = nth dim (shape (st a)) 0).
  { simpl in X0. symmetry in X0. apply nth_error_nth with (d := 0) in X0. auto. }
  destruct (Nat.eqb_spec n 1); [lia|]. cbn [nth_error]. rewrite Nat.eqb_refl. cbn [negb].
  rewrite check_skip with (d := pn q); auto; [apply (wf_pos a Hw)|].
  exists p. rewrite Hwide. simpl. simpl in X1. auto.
Qed.

Lemma singleton_fail : forall (a : stensor) p rest dim name w id, wf a -> wide (splates a) = p :: rest ->
  nth_error (shape (st a)) dim = Some 1 ->
  exists a' e, denote_independent recip top_ctx a dim name w id = (a', Err e).
Proof.
  intros a p rest dim name w id Hw Hwide Hd. unfold denote_independent. rewrite outside_top. cbn [negb].
  assert (Hlt : dim < length (shape (st a))) by (apply nth_error_Some; congruence).
  assert (Hp : 1 < pn p).
  { assert (In p (wide (splates a))) by (rewrite Hwide; left; auto). apply filter_In in H as [_ H]. now apply Nat.ltb_lt. }
  unfold to_front. destruct (Nat.eqb_spec dim 0).
  { subst. rewrite (wf_shape a Hw), Hwide in Hd. simpl in Hd. injection Hd as Hd. lia. }
  unfold transpose, ndim. assert (H0 : 0 < length (shape (st a))) by lia.
  rewrite (proj2 (Nat.ltb_lt _ _) Hlt), (proj2 (Nat.ltb_lt _ _) H0). cbn [andb].
  unfold independent_tensor. cbn [shape].
  pose proof (nth_error_swapl dim 0 (shape (st a)) 0 Hlt H0) as X0. simpl in X0. rewrite Hd in X0.
  destruct (swapl dim 0 (shape (st a))) as [|m sh] eqn:Es; [discriminate|]. simpl in X0. injection X0 as ->.
  destruct (existsb _ (splates a)) eqn:Ex. { eexists _, _. reflexivity. }
  eexists _, ValueError. f_equal. unfold mk_tensor. cbn [shape check_plates existsb new_plate pname pn Nat.eqb].
  rewrite check_skip with (d := 1); auto; [apply (wf_pos a Hw)|].
  exists p. rewrite Hwide. simpl. repeat split; auto. lia.
Qed.

(** gather_samples *)
Lemma list_eqb_refl : forall l, list_eqb l l = true.
Proof. induction l; simpl; auto. now rewrite Nat.eqb_refl. Qed.

Lemma cat_ok : forall (ts : list (ten V)) shp, ts <> [] -> (forall t, In t ts -> shape t = shp) ->
  exists u, cat_samples ts = Ok u /\ shape u = length ts :: shp /\
    forall i idx d, i < length ts -> el u (i :: idx) = el (nth i ts d) idx.
Proof.
  intros [|t ts] shp H Hs; [congruence|]. unfold cat_samples.
  replace (forallb _ (t :: ts)) with true.
  2:{ symmetry. apply forallb_forall. intros u Hu. rewrite (Hs u Hu), (Hs t (or_introl eq_refl)). apply list_eqb_refl. }
  eexists. split; [reflexivity|]. cbn [shape el hd tl]. split; [now rewrite (Hs t (or_introl eq_refl))|].
  intros i idx d Hi. f_equal. now apply nth_indep.
Qed.

Lemma gather_spec : forall (l : list stensor) a0 name w id,
  2 <= length l -> hd_error l = Some a0 -> (forall a, In a l -> wf a /\ N (wide (splates a)) = N (wide (splates a0)) /\
     shape (st a) = shape (st a0)) ->
  ~ In name (N (splates a0)) ->
  exists r, gather_samples recip top_ctx l name w id = Ok r /\ wf r /\
    splates r = new_plate recip name (length l) (splates a0) w :: splates a0 /\
    s_event_shape r = s_event_shape a0 /\ sparents r = map sid l /\
    forall s e, s name < length l -> den r s e = den (nth (s name) l a0) s e.
Proof.
  intros l a0 name w id H2 Hh Hl Hn. unfold gather_samples. rewrite outside_top. cbn [negb].
  destruct (cat_ok (map st l) (shape (st a0))) as [u [Eu [Hu Xu]]].
  { destruct l; [discriminate|]. discriminate. }
  { intros t Ht. apply in_map_iff in Ht as [a [<- Ha]]. apply (Hl a Ha). }
  rewrite Eu. cbn [bind]. destruct l as [|a l]; [discriminate|]. injection Hh as ->.
  assert (Hw : wf a0) by (apply (Hl a0); left; auto).
  destruct (independent_ok id u (map sid (a0 :: l)) (splates a0) name w (length (a0 :: l)) (s_event_shape a0))
    as [r [E [A1 [A2 [A3 [A4 [A5 A6]]]]]]]; auto.
  { apply Hw. } { apply (wf_pos a0 Hw). } { rewrite Hu, map_length, (wf_shape a0 Hw). reflexivity. }
  rewrite E. exists r. cbn [snd]. repeat split; auto; try apply A6.
  intros s e Hs. unfold den at 1. rewrite A3, A2. unfold wide. cbn [filter new_plate pn].
  destruct (Nat.ltb_spec 1 (length (a0 :: l))) as [_|Hc]; [|lia].
  cbn [map pname app]. rewrite (Xu _ _ (st a0)) by (rewrite map_length; auto). rewrite map_nth.
  unfold den. f_equal. f_equal.
  assert (Hin : In (nth (s name) (a0 :: l) a0) (a0 :: l)) by (apply nth_In; auto).
  destruct (Hl _ Hin) as [_ [HN _]].
  change (filter (fun p : plate => 1 <? pn p) (splates a0)) with (wide (splates a0)).
  rewrite <- (map_map (@pname V) s). rewrite <- HN. now rewrite map_map.
Qed.

Lemma gather_raw_spec : forall (l : list (ten V)) shp name w id, 2 <= length l -> (forall t, In t l -> shape t = shp) ->
  exists r, gather_raw recip top_ctx l name w id = Ok r /\ wf r /\
    splates r = [new_plate recip name (length l) [] w] /\ s_event_shape r = shp /\ sparents r = [] /\
    forall s e d, s name < length l -> den r s e = el (nth (s name) l d) e.
Proof.
  intros l shp name w id H2 Hl. unfold gather_raw. rewrite outside_top. cbn [negb].
  destruct (cat_ok l shp) as [u [Eu [Hu Xu]]]; auto. { destruct l; [simpl in H2; lia|discriminate]. }
  rewrite Eu. cbn [bind].
  destruct (independent_ok id u [] [] name w (length l) shp) as [r [E [A1 [A2 [A3 [A4 [A5 A6]]]]]]]; auto.
  { constructor. } { intros p []. }
  rewrite E. exists r. cbn [snd]. repeat split; auto; try apply A6.
  intros s e d Hs. unfold den. rewrite A3, A2. unfold wide. cbn [filter new_plate pn].
  destruct (Nat.ltb_spec 1 (length l)); [|lia]. cbn [map pname app]. now apply Xu.
Qed.

(** A single sample with a plate dimension is rejected. *)
Lemma gather_single_fail : forall (a : stensor) p rest name w id, wf a -> wide (splates a) = p :: rest ->
  gather_samples recip top_ctx [a] name w id = Err ValueError.
Proof.
  intros a p rest name w id Hw Hwide. unfold gather_samples. rewrite outside_top. cbn [negb map cat_samples forallb].
  rewrite list_eqb_refl. cbn [andb bind]. unfold independent_tensor. cbn [shape length].
  destruct (existsb _ (splates a)); auto.
  unfold mk_tensor. cbn [snd shape check_plates existsb new_plate pname pn Nat.eqb].
  assert (Hp : 1 < pn p).
  { assert (In p (wide (splates a))) by (rewrite Hwide; left; auto). apply filter_In in H as [_ H]. now apply Nat.ltb_lt. }
  rewrite check_skip with (d := 1); auto; [apply (wf_pos a Hw)|].
  exists p. rewrite Hwide. simpl. repeat split; auto. lia.
Qed.

Lemma gather_shape_fail : forall (l : list stensor) name w id,
  (exists a b, In a l /\ In b l /\ shape (st a) <> shape (st b)) ->
  gather_samples recip top_ctx l name w id = Err RuntimeError.
Proof.
  intros l name w id [a [b [Ha [Hb Hab]]]]. unfold gather_samples. rewrite outside_top. cbn [negb].
  destruct l as [|a0 l]; [destruct Ha|]. set (L := a0 :: l) in *. unfold cat_samples. cbn [map L]. fold L.
  change (st a0 :: map st l) with (map st L).
  destruct (forallb (fun u => list_eqb (shape u) (shape (st a0))) (map st L)) eqn:E; auto.
  exfalso. rewrite forallb_forall in E. apply Hab.
  assert (Q : forall x y, list_eqb x y = true -> x = y).
  { induction x as [|i x IH]; intros [|j y] H; try discriminate; auto. simpl in H. apply andb_prop in H as [H1 H2].
    apply Nat.eqb_eq in H1. rewrite (IH y); congruence. }
  rewrite (Q _ _ (E _ (in_map st _ _ Ha))), (Q _ _ (E _ (in_map st _ _ Hb))). reflexivity.
Qed.

(** add_cost *)
Lemma squeeze_spec : forall a base, callable veq [a] -> s_event_shape a = [1] ->
  exists r, handle_deterministic veq anc_unwrap top_ctx (torch_fn1 (fun t => Ok (squeeze_last t))) [PT a] [] [] default_opts base
              = Ok (PT r) /\
    splates r = splates a /\ s_event_shape r = [] /\ wf r /\ sparents r = [sid a] /\ s_stochastic r = false /\ sid r = base + 1 /\
    forall s, in_range s (splates a) -> den r s [] = den a s [0].
Proof.
  intros a base HC Hev.
  destruct (prepare_args_laid_out veq anc_unwrap [PT a] [] default_opts [a]) as [args' [kwargs' [E [F1 F2]]]]; auto.
  { repeat constructor. }
  inversion F1 as [|? x1 ? r1 U1 F1']; subst. inversion F1'; subst. inversion F2; subst.
  inversion U1 as [? u1 L1| | | | | | | |]; subst.
  unfold handle_deterministic. cbn [top_ctx c_stochastic]. rewrite E. cbn [bind torch_fn1 c_ignore].
  rewrite filter_none. cbn [prepare_outputs default_opts o_flatten bind].
  assert (Hw : wf a) by (destruct HC as [H _]; inversion H; auto).
  rewrite all_plates_single in *. change (max_event [a]) with (Nat.max 0 (s_event_dims a)) in L1. simpl Nat.max in L1.
  destruct (laid_out_self _ _ _ Hw L1) as [Hs X].
  assert (Hq : squeeze_last u1 = mkten (map pn (wide (splates a))) (fun idx => el u1 (idx ++ [0]))).
  { unfold squeeze_last. rewrite <- Hs, (wf_shape a Hw), Hev, rev_app_distr. simpl. now rewrite rev_involutive. }
  rewrite Hq.
  destruct (mk_tensor_good (base + 1) (mkten (map pn (wide (splates a))) (fun idx => el u1 (idx ++ [0]))) (map sid [a]) (splates a) false [])
    as [r [Hr [G1 [G2 [G3 [G4 [G5 [G6 G7]]]]]]]].
  { apply (wf_names a Hw). } { apply (wf_pos a Hw). } { simpl. now rewrite app_nil_r. }
  rewrite Hr. cbn [bind]. exists r.
  refine (conj eq_refl (conj G3 (conj G6 (conj G7 (conj G4 (conj G5 (conj G1 _))))))).
  intros s Hsr. unfold den. rewrite G2, G3. simpl. rewrite app_nil_r. symmetry. apply X.
  rewrite (wf_shape a Hw), Hev. unfold valid. apply Forall2_app. { apply in_range_valid. now apply in_range_wide. }
  constructor; auto.
Qed.

Lemma add_cost_ok : forall grad reg a name base, callable veq [a] -> name <> ""%string ->
  s_event_shape a = [] \/ s_event_shape a = [1] ->
  exists x, add_cost veq anc_unwrap top_ctx grad reg a name base = Ok (x, if grad then reg ++ [(x, name)] else reg) /\
    splates x = splates a /\ s_event_shape x = [] /\ wf x /\
    forall s, in_range s (splates a) -> den x s [] = den a s (map (fun _ => 0) (s_event_shape a)).
Proof.
  intros grad reg a name base HC Hn He. assert (Hw : wf a) by (destruct HC as [H _]; inversion H; auto).
  unfold add_cost.
  assert (X : exists b, (if list_eqb (s_event_shape a) [] then Ok (PT a) else if list_eqb (s_event_shape a) [1]
     then handle_deterministic veq anc_unwrap top_ctx (torch_fn1 (fun t => Ok (squeeze_last t))) [PT a] [] [] default_opts base
     else Err ValueError) = Ok (PT b) /\ splates b = splates a /\ s_event_shape b = [] /\ wf b /\
     forall s, in_range s (splates a) -> den b s [] = den a s (map (fun _ => 0) (s_event_shape a))).
  { destruct He as [He|He].
    - exists a. rewrite He. simpl. auto.
    - destruct (squeeze_spec a base HC He) as [b [Eb [B1 [B2 [B3 [B4 [B5 [B6 B7]]]]]]]].
      exists b. rewrite He in *. simpl. auto. }
  destruct X as [b [Eb [B1 [B2 [B3 B4]]]]]. rewrite Eb. cbn [bind].
  destruct (String.eqb_spec name ""); [congruence|].
  destruct (mk_tensor_good (base + 2) (st b) [sid b] (splates b) false []) as [x [Ex [G1 [G2 [G3 [G4 [G5 [G6 G7]]]]]]]].
  { apply B3. } { apply (wf_pos b B3). } { rewrite (wf_shape b B3), B2. reflexivity. }
  rewrite Ex. cbn [bind]. exists x. unfold append_cost. repeat split; try congruence; try apply G7.
  intros s Hs. rewrite <- B4 by auto. unfold den. now rewrite G2, G3.
Qed.

Lemma list_eqb_true : forall l m, list_eqb l m = true -> l = m.
Proof.
  induction l as [|i l IH]; intros [|j m] H; try discriminate; auto. simpl in H. apply andb_prop in H as [H1 H2].
  apply Nat.eqb_eq in H1. rewrite (IH m); congruence.
Qed.

Lemma add_cost_bad : forall grad reg a name base, callable veq [a] ->
  name = ""%string \/ (s_event_shape a <> [] /\ s_event_shape a <> [1]) ->
  add_cost veq anc_unwrap top_ctx grad reg a name base = Err ValueError.
Proof.
  intros grad reg a name base HC H. unfold add_cost.
  destruct (list_eqb (s_event_shape a) []) eqn:E0.
  - apply list_eqb_true in E0. destruct H as [->|[H _]]; [reflexivity|contradiction].
  - destruct (list_eqb (s_event_shape a) [1]) eqn:E1; auto.
    apply list_eqb_true in E1. destruct H as [->|[_ H]]; [|contradiction].
    destruct (squeeze_spec a base HC E1) as [b [Eb _]]. rewrite Eb. reflexivity.
Qed.

Lemma add_cost_raw_all : forall grad reg (t : ten V) name base,
  exists x, add_cost_raw grad reg t name base = Ok (x, if grad then reg ++ [(x, name)] else reg) /\ s_event_shape x = shape t /\ splates x = [] /\ sparents x = [] /\ s_stochastic x = false.
Proof. intros. eexists. split; [reflexivity|]. repeat split; reflexivity. Qed.

Lemma inside_rejected : forall c, c_stochastic c = true \/ 0 < c_deterministic c ->
  (forall a dim name w id, denote_independent recip c a dim name w id = (a, Err RuntimeError)) /\
  (forall t dim name w id, denote_independent_raw recip c t dim name w id = Err RuntimeError) /\
  (forall l name w id, gather_samples recip c l name w id = Err RuntimeError) /\
  (forall l name w id, gather_raw recip c l name w id = Err RuntimeError).
Proof.
  intros c H. assert (E : outside c = false).
  { unfold outside. apply negb_false_iff, orb_true_iff. destruct H; [now left|right]. now apply Nat.ltb_lt. }
  unfold denote_independent, denote_independent_raw, gather_samples, gather_raw. rewrite E. repeat split.
Qed.

End InferenceProofs.
