(** Proofs about matrix products. *)
From Coq Require Import String List Arith Bool Lia.
From Verif Require Import Base Torch Plates Wrap Scalar Matmul SpecMatmul SpecTensor SpecWrap SpecReduce ListLemmas IndexLemmas WrapProofs PlateEqProofs AlignProofs CallProofs CallProofs2 OpProofs CallN.
Import ListNotations.
Open Scope nat_scope.
Open Scope list_scope.

Section MatmulProofs.
Context {V : Type}.
Variable veq : V -> V -> bool.
Variable anc_unwrap : plate V -> stensor V -> res (stensor V).
Variable o : sops V.
Notation plate := (plate V).
Notation stensor := (stensor V).
Notation N l := (map (@pname V) l).

Lemma inner_ext : forall m (f g f' g' : nat -> V), (forall l, l < m -> f l = f' l) -> (forall l, l < m -> g l = g' l) -> inner o m f g = inner o m f' g'.
Proof. intros. unfold inner. f_equal. apply map_ext_in. intros l Hl. apply in_seq in Hl. rewrite H, H0 by lia. reflexivity. Qed.

Lemma cut2 : forall (l : list nat) n m, firstn (length (l ++ [n; m]) - 2) (l ++ [n; m]) = l /\ skipn (length (l ++ [n; m]) - 2) (l ++ [n; m]) = [n; m].
Proof.
  intros. rewrite app_length. simpl. replace (length l + 2 - 2) with (length l) by lia.
  rewrite firstn_app, firstn_all, skipn_app, skipn_all, Nat.sub_diag. simpl. now rewrite app_nil_r.
Qed.
Lemma batch_ok : forall (t u : ten V) bt bu bs n m k, shape t = bt ++ [n; m] -> shape u = bu ++ [m; k] -> bshape bt bu = Some bs ->
  exists r, batch_matmul o t u = Ok r /\ shape r = bs ++ [n; k] /\
    forall b i j, length b = length bs -> el r (b ++ [i; j]) = inner o m (fun l => el t (bidx bt b ++ [i; l])) (fun l => el u (bidx bu b ++ [l; j])).
Proof.
  intros t u bt bu bs n m k Ht Hu Hb. unfold batch_matmul, ndim. rewrite Ht, Hu.
  destruct (cut2 bt n m) as [-> ->]. destruct (cut2 bu m k) as [-> ->]. rewrite Hb, Nat.eqb_refl. eexists. split; [reflexivity|]. split; [reflexivity|].
  intros b i j L. cbn [el]. rewrite <- L. rewrite firstn_app, firstn_all, Nat.sub_diag. simpl firstn at 1 2. rewrite app_nil_r.
  rewrite app_nth2, Nat.sub_diag by lia. rewrite (app_nth2 b) by lia. replace (S (length b) - length b) with 1 by lia. reflexivity.
Qed.
Lemma matmul_batch : forall t u : ten V, 2 <= ndim t -> 2 <= ndim u -> matmul o t u = batch_matmul o t u.
Proof.
  intros t u Ht Hu. unfold matmul. replace (ndim t =? 0) with false by (symmetry; apply Nat.eqb_neq; lia). replace (ndim u =? 0) with false by (symmetry; apply Nat.eqb_neq; lia).
  replace (ndim t =? 1) with false by (symmetry; apply Nat.eqb_neq; lia). replace (ndim u =? 1) with false by (symmetry; apply Nat.eqb_neq; lia). cbn [orb].
  assert (E1 : one_row t = t). { unfold one_row. unfold ndim in Ht. destruct (shape t) as [|? [|]]; simpl in Ht; auto; lia. }
  assert (E2 : one_column u = u). { unfold one_column. unfold ndim in Hu. destruct (shape u) as [|? [|]]; simpl in Hu; auto; lia. }
  rewrite E1, E2. destruct (batch_matmul o t u); reflexivity.
Qed.
Lemma batch_mismatch : forall (t u : ten V) bt bu n m m' k, shape t = bt ++ [n; m] -> shape u = bu ++ [m'; k] -> m <> m' -> batch_matmul o t u = Err RuntimeError.
Proof.
  intros t u bt bu n m m' k Ht Hu Hm. unfold batch_matmul, ndim. rewrite Ht, Hu.
  destruct (cut2 bt n m) as [-> ->]. destruct (cut2 bu m' k) as [-> ->]. destruct (bshape bt bu); auto.
  apply Nat.eqb_neq in Hm. now rewrite Hm.
Qed.

Lemma all2 : forall a b : stensor, all_plates [a; b] = union (splates a) (splates b).
Proof. intros. unfold all_plates. simpl. now rewrite union_nil_l. Qed.
Lemma two_plates : forall (a b : stensor), callable veq [a; b] -> forall p, In p (wide (all_plates [a; b])) -> has (splates a) (pname p) = true \/ has (splates b) (pname p) = true.
Proof.
  intros a b HC p Hp. destruct (all_plates_facts veq anc_unwrap [a; b] HC) as [_ [_ X]]. apply In_wide in Hp. destruct Hp as [Hp _].
  destruct (proj1 (X (pname p)) (in_map _ _ _ Hp)) as [t [[<-|[<-|[]]] Ht]]; [left|right]; now apply has_In.
Qed.
Lemma valid_app_inv : forall e e' a b, length e = length a -> valid (e ++ e') (a ++ b) -> valid e a /\ valid e' b.
Proof.
  induction e as [|i e IH]; intros e' a b L H; destruct a as [|n a]; try discriminate; [split; [constructor|exact H]|].
  simpl in H. inversion H; subst. destruct (IH e' a b) as [H1 H2]; auto. split; auto. constructor; auto.
Qed.

(** Operands of the same event rank, at least two. *)
Theorem matmul_spec : forall (a b : stensor) base ea eb ec n m k, callable veq [a; b] ->
  s_event_shape a = ea ++ [n; m] -> s_event_shape b = eb ++ [m; k] -> broadcasts ea eb ec ->
  exists r, st_matmul veq anc_unwrap o (PT a) (PT b) base = Ok (PT r) /\ splates r = union (splates a) (splates b) /\ s_event_shape r = ec ++ [n; k] /\
    wf r /\ sparents r = [sid a; sid b] /\
    forall s e i j, in_range s (splates r) -> valid e ec -> i < n -> j < k ->
    den r s (e ++ [i; j]) = inner o m (fun l => den a s (proj ea e ++ [i; l])) (fun l => den b s (proj eb e ++ [l; j])).
Proof.
  intros a b base ea eb ec n m k HC Ha Hb HB.
  destruct (call_spec veq anc_unwrap (matmul_fn o) [a; b] base default_opts ltac:(discriminate) HC eq_refl eq_refl eq_refl eq_refl eq_refl eq_refl) as [us [F [_ K]]].
  inversion F as [|? ua ? r1 La F1]; subst. inversion F1 as [|? ub ? r2 Lb F2]; subst. inversion F2; subst.
  destruct Lb as [Sb Xb], La as [Sa Xa]. simpl o_expand in *.
  destruct (broadcasts_length _ _ _ HB) as [L1 L2].
  assert (Da : s_event_dims a = length ec + 2) by (unfold s_event_dims; rewrite Ha, app_length; simpl; lia).
  assert (Db : s_event_dims b = length ec + 2) by (unfold s_event_dims; rewrite Hb, app_length; simpl; lia).
  assert (Em : max_event [a; b] = length ec + 2) by (change (max_event [a; b]) with (Nat.max (s_event_dims a) (s_event_dims b)); lia).
  assert (Pa : pad (length ec + 2) (s_event_shape a) = s_event_shape a).
  { unfold pad. replace (length ec + 2 - length (s_event_shape a)) with 0 by (unfold s_event_dims in Da; lia). apply app_nil_r. }
  assert (Pb : pad (length ec + 2) (s_event_shape b) = s_event_shape b).
  { unfold pad. replace (length ec + 2 - length (s_event_shape b)) with 0 by (unfold s_event_dims in Db; lia). apply app_nil_r. }
  rewrite Em, Pa in Sa, Xa. rewrite Em, Pb in Sb, Xb. set (ps := wide (all_plates [a; b])) in *.
  assert (Hps : forall p, In p ps -> 1 < pn p) by (intros p Hp; apply In_wide in Hp; tauto).
  rewrite Ha, app_assoc in Sa. rewrite Hb, app_assoc in Sb.
  pose proof (broadcasts_app _ _ _ _ _ _ (wide_choice_broadcasts a b ps (two_plates a b HC)) HB) as BB.
  destruct (batch_ok ua ub _ _ _ n m k Sa Sb (broadcasts_bshape _ _ _ BB)) as [t [T1 [T2 T3]]].
  destruct (K t (ec ++ [n; k])) as [r [U1 [U2 [U3 [U4 [U5 [U6 [U7 U8]]]]]]]].
  { cbn [matmul_fn]. rewrite matmul_batch; auto; unfold ndim; [rewrite Sa|rewrite Sb]; rewrite !app_length; simpl; lia. }
  { now rewrite T2, app_assoc. }
  exists r. rewrite all2 in U2. split; [exact U1|]. split; [exact U2|]. split; [exact U4|]. split; [exact U5|]. split; [exact U6|].
  intros s e i j Hs He Hi Hj. unfold den at 1. rewrite U3, U2, <- all2. fold ps. rewrite app_assoc.
  assert (Hsp : in_range s ps) by (intros p Hp; apply Hs; rewrite U2, <- all2; apply In_wide in Hp; tauto).
  pose proof (valid_length _ _ He) as Le.
  rewrite T3 by (rewrite !app_length, !map_length; lia).
  assert (C : forall (c : stensor) ex, length ex = length ec ->
    bidx (map (fun p => if has (splates c) (pname p) || false then pn p else 1) ps ++ ex) (map (fun p => s (pname p)) ps ++ e)
    = map (fun p => if has (splates c) (pname p) || false then s (pname p) else 0) ps ++ proj ex e).
  { intros c ex Lx. rewrite bidx_same by (rewrite !app_length, !map_length; lia). rewrite zip_clip_app by now rewrite !map_length. rewrite clip_choice2 by auto. reflexivity. }
  rewrite !C by auto. apply inner_ext; intros l Hl.
  - rewrite <- app_assoc, Xa; auto.
    + rewrite firstn_all2; auto. rewrite app_length. simpl. rewrite proj_zip_clip, zip_clip_length by lia. lia.
    + rewrite Ha. apply Forall2_app; [rewrite proj_zip_clip; eapply broadcasts_valid_l; eauto|repeat constructor; auto].
  - rewrite <- app_assoc, Xb; auto.
    + rewrite firstn_all2; auto. rewrite app_length. simpl. rewrite proj_zip_clip, zip_clip_length by lia. lia.
    + rewrite Hb. apply Forall2_app; [rewrite proj_zip_clip; eapply broadcasts_valid_r; eauto|repeat constructor; auto].
Qed.

(** A torch tensor as one operand. *)
Definition order {A} (left : bool) (x y : A) : list A := if left then [y; x] else [x; y].
Lemma call_raw : forall (a : stensor) (w : ten V) left f base, callable veq [a] ->
  exists u, laid_out (wide (splates a)) false (s_event_dims a) a u /\
    (forall e, f (order left u w) = Err e -> handle_deterministic veq anc_unwrap top_ctx (torch_fnN f) (order left (PT a) (PRaw w)) [] [] default_opts base = Err e) /\
    forall t evc, f (order left u w) = Ok t -> shape t = map pn (wide (splates a)) ++ evc ->
    exists r, handle_deterministic veq anc_unwrap top_ctx (torch_fnN f) (order left (PT a) (PRaw w)) [] [] default_opts base = Ok (PT r) /\
      splates r = splates a /\ st r = t /\ s_event_shape r = evc /\ wf r /\ sparents r = [sid a].
Proof.
  intros a w left f base HC.
  assert (Ea : all_plates [a] = splates a) by (unfold all_plates; simpl; now rewrite union_nil_l).
  assert (Em : max_event [a] = s_event_dims a) by reflexivity.
  destruct (prepare_args_laid_out veq anc_unwrap (order left (PT a) (PRaw w)) [] default_opts [a]) as [args' [kwargs' [E [F1 F2]]]]; auto.
  { destruct left; reflexivity. } { destruct left; repeat constructor. }
  inversion F2; subst. rewrite Ea, Em in *.
  assert (X : exists u, args' = order left (PRaw u) (PRaw w) /\ laid_out (wide (splates a)) false (s_event_dims a) a u).
  { destruct left; cbn [order] in F1; inversion F1 as [|? x ? ? H1 H2]; subst; inversion H2 as [|? y ? ? H3 H4]; subst; inversion H4; subst.
    - inversion H1; subst. inversion H3; subst. eexists. split; [reflexivity|auto].
    - inversion H1; subst. inversion H3; subst. eexists. split; [reflexivity|auto]. }
  destruct X as [u [-> L]]. exists u. split; [exact L|].
  unfold handle_deterministic. simpl c_stochastic. cbv iota. rewrite E. cbn [bind].
  assert (R : torch_fnN f (order left (PRaw u) (PRaw w)) [] = do t <- f (order left u w); Ok (PRaw t)) by (destruct left; reflexivity).
  rewrite R. split; [intros e He; now rewrite He|]. intros t evc Ht Hs. rewrite Ht. cbn [bind c_ignore top_ctx].
  rewrite filter_none. cbn [prepare_outputs default_opts o_flatten bind].
  assert (Hw : wf a) by (destruct HC as [H _]; inversion H; auto).
  destruct (mk_tensor_good (base + 1) t (map sid [a]) (splates a) false evc) as [r [R1 [R2 [R3 [R4 [R5 [R6 [R7 R8]]]]]]]]; auto; try apply Hw.
  rewrite R1. cbn [bind]. exists r. repeat split; auto; apply R8.
Qed.

Lemma bshape_nil_r : forall l, bshape l [] = Some l.
Proof. intros l. unfold bshape. simpl. destruct (rev l) eqn:E; simpl; f_equal; rewrite <- (rev_involutive l), E; reflexivity. Qed.
Lemma bshape_nil_l : forall l, bshape [] l = Some l.
Proof. intros l. unfold bshape. simpl. now rewrite rev_involutive. Qed.
Lemma bidx_nil : forall i, bidx [] i = [].
Proof. intros. unfold bidx. destruct (skipn (length i - 0) i); reflexivity. Qed.

(** Rows times a matrix. *)
Lemma matmul_right : forall (t w : ten V) L m k, shape t = L ++ [m] -> shape w = [m; k] ->
  exists r, matmul o t w = Ok r /\ shape r = L ++ [k] /\ forall x j, valid x L -> el r (x ++ [j]) = inner o m (fun l => el t (x ++ [l])) (fun l => el w [l; j]).
Proof.
  intros t w L m k Ht Hw. destruct (list_eq_dec Nat.eq_dec L []) as [->|Hne].
  - unfold matmul, ndim. rewrite Ht, Hw. cbn [app length Nat.eqb orb]. 
    assert (E1 : one_row t = mkten [1; m] (fun i => el t (tl i))) by (unfold one_row; now rewrite Ht). assert (E2 : one_column w = w) by (unfold one_column; now rewrite Hw).
    rewrite E1, E2. destruct (batch_ok (mkten [1; m] (fun i => el t (tl i))) w [] [] [] 1 m k eq_refl Hw eq_refl) as [r [R1 [R2 R3]]].
    rewrite R1. cbn [bind]. eexists. split; [reflexivity|]. rewrite R2. cbn [app length Nat.sub drop_dim shape el]. split; [cbn [drop_dim shape]; rewrite R2; reflexivity|].
    intros x j Hx. inversion Hx; subst. cbn [app drop_dim el]. change (insert_at 0 0 [j]) with ([] ++ [0; j]). rewrite R3 by auto. apply inner_ext; intros; reflexivity.
  - destruct (exists_last Hne) as [L' [n ->]]. rewrite <- app_assoc in Ht. cbn [app] in Ht.
    rewrite matmul_batch by (unfold ndim; rewrite ?Ht, ?Hw, ?app_length; simpl; lia).
    destruct (batch_ok t w L' [] L' n m k Ht Hw (bshape_nil_r L')) as [r [R1 [R2 R3]]]. exists r. split; [exact R1|]. split; [rewrite R2, <- app_assoc; reflexivity|].
    intros x j Hx. pose proof (valid_length _ _ Hx) as Lx. rewrite app_length in Lx. simpl in Lx.
    assert (Hx0 : x <> []) by (intros ->; simpl in Lx; lia). destruct (exists_last Hx0) as [b [i ->]]. rewrite app_length in Lx. simpl in Lx.
    apply valid_app_inv in Hx; [|lia]. rewrite <- app_assoc. cbn [app]. rewrite R3 by lia. apply inner_ext; intros l Hl; [rewrite bidx_valid by tauto; now rewrite <- app_assoc|now rewrite bidx_nil].
Qed.
Theorem matmul_right_spec : forall (a : stensor) (w : ten V) base ev m k, callable veq [a] -> s_event_shape a = ev ++ [m] -> shape w = [m; k] ->
  exists r, st_matmul veq anc_unwrap o (PT a) (PRaw w) base = Ok (PT r) /\ splates r = splates a /\ s_event_shape r = ev ++ [k] /\ wf r /\ sparents r = [sid a] /\
    forall s e j, in_range s (splates a) -> valid e ev -> den r s (e ++ [j]) = inner o m (fun l => den a s (e ++ [l])) (fun l => el w [l; j]).
Proof.
  intros a w base ev m k HC Ha Hw. destruct (call_raw a w false (matmul_fn o) base HC) as [u [[S X] [_ K]]]. cbn [order] in K.
  set (ps := wide (splates a)) in *.
  assert (Pa : pad (s_event_dims a) (s_event_shape a) = s_event_shape a) by (unfold pad, s_event_dims; rewrite Nat.sub_diag; apply app_nil_r).
  assert (M : forall (f g : plate -> nat), map (fun p => if has (splates a) (pname p) || false then f p else g p) ps = map f ps).
  { intros f g. apply map_ext_in. intros p Hp. replace (has (splates a) (pname p)) with true; auto. symmetry. apply has_In. apply in_map. apply In_wide in Hp. tauto. }
  rewrite M, Pa, Ha, app_assoc in S.
  destruct (matmul_right u w _ m k S Hw) as [t [T1 [T2 T3]]].
  destruct (K t (ev ++ [k])) as [r [U1 [U2 [U3 [U4 [U5 U6]]]]]]; [exact T1|now rewrite T2, app_assoc|].
  exists r. split; [exact U1|]. split; auto. split; auto. split; auto. split; auto.
  intros s e j Hs He. assert (Hsp : in_range s ps) by (intros p Hp; apply Hs; apply In_wide in Hp; tauto).
  unfold den at 1. rewrite U3, U2. fold ps. rewrite app_assoc.
  assert (Hv : valid (map (fun p => s (pname p)) ps) (map pn ps)).
  { clear - Hsp. induction ps as [|p ps IH]; simpl; constructor; [apply Hsp; simpl; auto|apply IH; intros q Hq; apply Hsp; simpl; auto]. }
  rewrite T3 by (apply Forall2_app; auto). apply inner_ext; intros l Hl; auto. rewrite <- app_assoc.
  specialize (X s (e ++ [l]) Hsp). rewrite M in X. rewrite X.
  - rewrite firstn_all2; auto. unfold s_event_dims. rewrite Ha, !app_length. simpl. rewrite (valid_length _ _ He). lia.
  - rewrite Pa, Ha. apply Forall2_app; auto; repeat constructor; auto.
Qed.
(** Rows times a vector. *)
Lemma matmul_vector : forall (t w : ten V) L m, shape t = L ++ [m] -> shape w = [m] ->
  exists r, matmul o t w = Ok r /\ shape r = L /\ forall x, valid x L -> el r x = inner o m (fun l => el t (x ++ [l])) (fun l => el w [l]).
Proof.
  intros t w L m Ht Hw. set (w' := mkten [m; 1] (fun i => el w (firstn 1 i))).
  destruct (matmul_right t w' L m 1 Ht eq_refl) as [r [R1 [R2 R3]]].
  assert (E2 : one_column w = w') by (unfold one_column; now rewrite Hw). assert (E3 : one_column w' = w') by reflexivity.
  unfold matmul in *. assert (N0 : ndim t <> 0) by (unfold ndim; rewrite Ht, app_length; simpl; lia). destruct (Nat.eqb_spec (ndim t) 0); [contradiction|].
  assert (Nw : ndim w = 1) by (unfold ndim; now rewrite Hw). rewrite Nw, E2. cbn [Nat.eqb orb]. cbn [ndim shape w' length Nat.eqb orb] in R1. rewrite E3 in R1.
  destruct (batch_matmul o (one_row t) w') as [b|]; [|discriminate]. cbn [bind] in R1 |- *.
  injection R1 as R1. rewrite R1. eexists. split; [reflexivity|]. unfold drop_dim at 1. cbn [shape]. unfold ndim. rewrite R2, app_length. cbn [length]. replace (length L + 1 - 1) with (length L) by lia. split.
  - unfold remove_at. rewrite firstn_app, firstn_all, Nat.sub_diag. cbn [firstn]. rewrite app_nil_r, skipn_all2 by (rewrite app_length; simpl; lia). now rewrite app_nil_r.
  - intros x Hx. cbn [drop_dim el]. unfold insert_at. rewrite <- (valid_length _ _ Hx), firstn_all, skipn_all. rewrite (R3 x 0 Hx). reflexivity.
Qed.
Theorem matmul_vector_spec : forall (a : stensor) (w : ten V) base ev m, callable veq [a] -> s_event_shape a = ev ++ [m] -> shape w = [m] ->
  exists r, st_matmul veq anc_unwrap o (PT a) (PRaw w) base = Ok (PT r) /\ splates r = splates a /\ s_event_shape r = ev /\ wf r /\ sparents r = [sid a] /\
    forall s e, in_range s (splates a) -> valid e ev -> den r s e = inner o m (fun l => den a s (e ++ [l])) (fun l => el w [l]).
Proof.
  intros a w base ev m HC Ha Hw. destruct (call_raw a w false (matmul_fn o) base HC) as [u [[S X] [_ K]]]. cbn [order] in K.
  set (ps := wide (splates a)) in *.
  assert (Pa : pad (s_event_dims a) (s_event_shape a) = s_event_shape a) by (unfold pad, s_event_dims; rewrite Nat.sub_diag; apply app_nil_r).
  assert (M : forall (f g : plate -> nat), map (fun p => if has (splates a) (pname p) || false then f p else g p) ps = map f ps).
  { intros f g. apply map_ext_in. intros p Hp. replace (has (splates a) (pname p)) with true; auto. symmetry. apply has_In. apply in_map. apply In_wide in Hp. tauto. }
  rewrite M, Pa, Ha, app_assoc in S.
  destruct (matmul_vector u w _ m S Hw) as [t [T1 [T2 T3]]].
  destruct (K t ev) as [r [U1 [U2 [U3 [U4 [U5 U6]]]]]]; [exact T1|exact T2|].
  exists r. split; [exact U1|]. split; auto. split; auto. split; auto. split; auto.
  intros s e Hs He. assert (Hsp : in_range s ps) by (intros p Hp; apply Hs; apply In_wide in Hp; tauto).
  unfold den at 1. rewrite U3, U2. fold ps.
  assert (Hv : valid (map (fun p => s (pname p)) ps) (map pn ps)).
  { clear - Hsp. induction ps as [|p ps IH]; simpl; constructor; [apply Hsp; simpl; auto|apply IH; intros q Hq; apply Hsp; simpl; auto]. }
  rewrite T3 by (apply Forall2_app; auto). apply inner_ext; intros l Hl; auto. rewrite <- app_assoc.
  specialize (X s (e ++ [l]) Hsp). rewrite M in X. rewrite X.
  - rewrite firstn_all2; auto. unfold s_event_dims. rewrite Ha, !app_length. simpl. rewrite (valid_length _ _ He). lia.
  - rewrite Pa, Ha. apply Forall2_app; auto; repeat constructor; auto.
Qed.
Theorem matmul_left_spec : forall (a : stensor) (w : ten V) base ev n m k, callable veq [a] -> s_event_shape a = ev ++ [m; k] -> shape w = [n; m] ->
  exists r, st_matmul veq anc_unwrap o (PRaw w) (PT a) base = Ok (PT r) /\ splates r = splates a /\ s_event_shape r = ev ++ [n; k] /\ wf r /\ sparents r = [sid a] /\
    forall s e i j, in_range s (splates a) -> valid e ev -> i < n -> j < k -> den r s (e ++ [i; j]) = inner o m (fun l => el w [i; l]) (fun l => den a s (e ++ [l; j])).
Proof.
  intros a w base ev n m k HC Ha Hw. destruct (call_raw a w true (matmul_fn o) base HC) as [u [[S X] [_ K]]]. cbn [order] in K.
  set (ps := wide (splates a)) in *.
  assert (Pa : pad (s_event_dims a) (s_event_shape a) = s_event_shape a) by (unfold pad, s_event_dims; rewrite Nat.sub_diag; apply app_nil_r).
  assert (M : forall (f g : plate -> nat), map (fun p => if has (splates a) (pname p) || false then f p else g p) ps = map f ps).
  { intros f g. apply map_ext_in. intros p Hp. replace (has (splates a) (pname p)) with true; auto. symmetry. apply has_In. apply in_map. apply In_wide in Hp. tauto. }
  rewrite M, Pa, Ha, app_assoc in S.
  destruct (batch_ok w u [] _ _ n m k Hw S (bshape_nil_l _)) as [t [T1 [T2 T3]]].
  destruct (K t (ev ++ [n; k])) as [r [U1 [U2 [U3 [U4 [U5 U6]]]]]]; [cbn [matmul_fn]; rewrite matmul_batch; auto; unfold ndim; rewrite ?Hw, ?S, ?app_length; simpl; lia|now rewrite T2, app_assoc|].
  exists r. split; [exact U1|]. split; auto. split; auto. split; auto. split; auto.
  intros s e i j Hs He Hi Hj. assert (Hsp : in_range s ps) by (intros p Hp; apply Hs; apply In_wide in Hp; tauto).
  unfold den at 1. rewrite U3, U2. fold ps. rewrite app_assoc.
  assert (Hv : valid (map (fun p => s (pname p)) ps) (map pn ps)).
  { clear - Hsp. induction ps as [|p ps IH]; simpl; constructor; [apply Hsp; simpl; auto|apply IH; intros q Hq; apply Hsp; simpl; auto]. }
  rewrite T3 by (rewrite !app_length, !map_length; f_equal; now apply valid_length). apply inner_ext; intros l Hl; [now rewrite bidx_nil|].
  rewrite bidx_valid by (apply Forall2_app; auto). rewrite <- app_assoc.
  specialize (X s (e ++ [l; j]) Hsp). rewrite M in X. rewrite X.
  - rewrite firstn_all2; auto. unfold s_event_dims. rewrite Ha, !app_length. simpl. rewrite (valid_length _ _ He). lia.
  - rewrite Pa, Ha. apply Forall2_app; auto; repeat constructor; auto.
Qed.

(** Vectors with one common plate: the plate becomes the rows of one matrix and the columns of the other. *)
Theorem matmul_vectors : forall (a b : stensor) base p m, callable veq [a; b] -> splates a = [p] -> splates b = [p] -> 1 < pn p ->
  s_event_shape a = [m] -> s_event_shape b = [m] ->
  (pn p <> m -> st_matmul veq anc_unwrap o (PT a) (PT b) base = Err RuntimeError) /\
  (pn p = m -> exists r, st_matmul veq anc_unwrap o (PT a) (PT b) base = Ok (PT r) /\ splates r = [p] /\ s_event_shape r = [m] /\
     forall s j, in_range s [p] -> j < m ->
     den r s [j] = inner o m (fun l => den a s [l]) (fun l => den b (set_to s (pname p) l) [j])).
Proof.
  intros a b base p m HC Pa Pb Hn Ea Eb.
  destruct (call_spec veq anc_unwrap (matmul_fn o) [a; b] base default_opts ltac:(discriminate) HC eq_refl eq_refl eq_refl eq_refl eq_refl eq_refl) as [us [F [Ke K]]].
  inversion F as [|? ua ? r1 La F1]; subst. inversion F1 as [|? ub ? r2 Lb F2]; subst. inversion F2; subst.
  destruct Lb as [Sb Xb], La as [Sa Xa]. simpl o_expand in *.
  assert (Ep : all_plates [a; b] = [p]).
  { rewrite all2, Pa, Pb. unfold union, has. simpl. now rewrite String.eqb_refl. }
  assert (Ew : wide [p] = [p]) by (unfold wide; simpl; apply Nat.ltb_lt in Hn; now rewrite Hn).
  assert (Em : max_event [a; b] = 1) by (unfold max_event; simpl; unfold s_event_dims; now rewrite Ea, Eb).
  rewrite Em, Ep, Ew, Ea, Pa in Sa, Xa. rewrite Em, Ep, Ew, Eb, Pb in Sb, Xb. rewrite Ep, Ew in K. unfold has in Sa, Sb, Xa, Xb.
  cbn [map existsb] in Sa, Sb, Xa, Xb. rewrite String.eqb_refl in Sa, Sb, Xa, Xb. cbn [orb app pad repeat length Nat.sub] in Sa, Sb, Xa, Xb.
  split.
  - intros Hne. apply Ke. cbn [matmul_fn]. rewrite matmul_batch by (unfold ndim; rewrite ?Sa, ?Sb; simpl; lia).
    apply (batch_mismatch ua ub [] [] (pn p) m (pn p) m); auto.
  - intros Hm. rewrite Hm in Sb.
    destruct (batch_ok ua ub [] [] [] (pn p) m m Sa Sb eq_refl) as [t [T1 [T2 T3]]].
    destruct (K t [m]) as [r [U1 [U2 [U3 [U4 [U5 [U6 [U7 U8]]]]]]]].
    { cbn [matmul_fn]. rewrite matmul_batch by (unfold ndim; rewrite ?Sa, ?Sb; simpl; lia). exact T1. } { exact T2. }
    exists r. split; [exact U1|]. split; [exact U2|]. split; [exact U4|]. intros s j Hs Hj.
    unfold den at 1. rewrite U3, U2, Ew. cbn [map app]. change [s (pname p); j] with ([] ++ [s (pname p); j]). rewrite T3 by reflexivity.
    apply inner_ext; intros l Hl.
    + rewrite bidx_nil. cbn [app]. unfold s_event_dims in Xa. rewrite Ea in Xa. rewrite (Xa s [l] Hs) by (repeat constructor; auto). reflexivity.
    + rewrite bidx_nil. cbn [app]. unfold s_event_dims in Xb. rewrite Eb in Xb. specialize (Xb (set_to s (pname p) l) [j]).
      assert (E1 : set_to s (pname p) l (pname p) = l) by (unfold set_to; now rewrite String.eqb_refl). rewrite E1 in Xb. rewrite Xb; [reflexivity| |repeat constructor; auto].
      intros q [<-|[]]. rewrite E1. lia.
Qed.
(** A matrix and a vector: the vector is padded to one column, which stays in the result; a vector and a matrix do not fit. *)
Theorem matmul_matrix_vector : forall (a b : stensor) base n m, callable veq [a; b] -> s_event_shape a = [n; m] -> s_event_shape b = [m] ->
  exists r, st_matmul veq anc_unwrap o (PT a) (PT b) base = Ok (PT r) /\ s_event_shape r = [n; 1].
Proof.
  intros a b base n m HC Ea Eb.
  destruct (call_spec veq anc_unwrap (matmul_fn o) [a; b] base default_opts ltac:(discriminate) HC eq_refl eq_refl eq_refl eq_refl eq_refl eq_refl) as [us [F [Ke K]]].
  inversion F as [|? ua ? r1 La F1]; subst. inversion F1 as [|? ub ? r2 Lb F2]; subst. inversion F2; subst.
  destruct Lb as [Sb Xb], La as [Sa Xa]. simpl o_expand in *.
  assert (Em : max_event [a; b] = 2) by (unfold max_event; simpl; unfold s_event_dims; now rewrite Ea, Eb).
  rewrite Em, Ea in Sa. rewrite Em, Eb in Sb. cbn [pad app repeat length Nat.sub] in Sa, Sb. unfold pad in Sa, Sb. cbn [app repeat length Nat.sub] in Sa, Sb.
  destruct (batch_ok ua ub _ _ _ n m 1 Sa Sb (broadcasts_bshape _ _ _ (wide_choice_broadcasts a b _ (two_plates a b HC)))) as [t [T1 [T2 _]]].
  destruct (K t [n; 1]) as [r [U1 [U2 [U3 [U4 _]]]]]; auto.
  { cbn [matmul_fn]. rewrite matmul_batch; auto; unfold ndim; [rewrite Sa|rewrite Sb]; rewrite !app_length; simpl; lia. }
  exists r. auto.
Qed.
Theorem matmul_vector_matrix : forall (a b : stensor) base m k, callable veq [a; b] -> s_event_shape a = [m] -> s_event_shape b = [m; k] -> m <> 1 ->
  st_matmul veq anc_unwrap o (PT a) (PT b) base = Err RuntimeError.
Proof.
  intros a b base m k HC Ea Eb Hm.
  destruct (call_spec veq anc_unwrap (matmul_fn o) [a; b] base default_opts ltac:(discriminate) HC eq_refl eq_refl eq_refl eq_refl eq_refl eq_refl) as [us [F [Ke K]]].
  inversion F as [|? ua ? r1 La F1]; subst. inversion F1 as [|? ub ? r2 Lb F2]; subst. inversion F2; subst.
  destruct Lb as [Sb Xb], La as [Sa Xa]. simpl o_expand in *.
  assert (Em : max_event [a; b] = 2) by (unfold max_event; simpl; unfold s_event_dims; now rewrite Ea, Eb).
  rewrite Em, Ea in Sa. rewrite Em, Eb in Sb. unfold pad in Sa, Sb. cbn [app repeat length Nat.sub] in Sa, Sb.
  apply Ke. cbn [matmul_fn]. rewrite matmul_batch; [|unfold ndim; rewrite Sa, app_length; simpl; lia|unfold ndim; rewrite Sb, app_length; simpl; lia].
  eapply batch_mismatch; eauto.
Qed.
End MatmulProofs.
