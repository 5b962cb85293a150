(** A wrapped call of a function that treats leading dimensions as batch dimensions. *)
From Coq Require Import String List Arith Bool Lia Permutation.
From Verif Require Import Base Torch Plates Wrap Scalar Straight ListLemmas IndexLemmas SpecTensor SpecWrap
  WrapProofs PlateEqProofs AlignProofs CallProofs CallProofs2 OpProofs CallN SpecStraight.
Import ListNotations.
Open Scope nat_scope.

Section Call.
Context {V : Type}.
Variable veq : V -> V -> bool.
Variable anc_unwrap : plate V -> stensor V -> res (stensor V).
Notation plate := (plate V).
Notation stensor := (stensor V).
Notation N l := (map (@pname V) l).

Lemma max_event_maxl : forall ts : list stensor, max_event ts = maxl (map (@length nat) (map s_event_shape ts)).
Proof.
  intros ts. unfold max_event, maxl. generalize 0. induction ts as [|t ts IH]; intros m; [reflexivity|]. cbn [fold_left map]. apply IH.
Qed.
Lemma evened_map : forall ts : list stensor, evened_shapes (map s_event_shape ts) = map (fun t => pad (max_event ts) (s_event_shape t)) ts.
Proof. intros ts. unfold evened_shapes. rewrite map_map, <- max_event_maxl. reflexivity. Qed.

Lemma masked_map : forall (l : list plate) (k : plate -> bool) one (f : plate -> nat),
  masked (map k l) one (map f l) = map (fun p => if k p then f p else one) l.
Proof. unfold masked. induction l as [|p l IH]; intros k one f; [reflexivity|]. cbn [map combine fst snd]. now rewrite IH. Qed.

Lemma wide_in_range : forall (s : assignment) (l : list plate), in_range s l -> in_range s (wide l).
Proof. intros s l H p Hp. apply H. unfold wide in Hp. apply filter_In in Hp. tauto. Qed.

Lemma combine_pairs : forall {A B} (R : A -> B -> Prop) a b, Forall2 R a b -> length a = length b /\ forall x y, In (x, y) (combine a b) -> R x y.
Proof.
  intros A B R a b F. induction F as [|x y a b H F [IH1 IH2]]; [split; auto; intros x y []|]. split; [simpl; auto|].
  intros x' y' [E|Hin]; [injection E; intros; subst; auto|auto].
Qed.
Lemma combine_fst : forall {A B C} (f : A -> C) (a : list A) (b : list B), length a = length b -> map (fun xy => f (fst xy)) (combine a b) = map f a.
Proof. induction a as [|x a IH]; intros [|y b] L; simpl in *; try lia; auto. f_equal. apply IH. lia. Qed.
Lemma combine_snd : forall {A B} (a : list A) (b : list B), length a = length b -> map snd (combine a b) = b.
Proof. induction a as [|x a IH]; intros [|y b] L; simpl in *; try lia; auto. f_equal. apply IH. lia. Qed.
Lemma combine_nth_in : forall {A B} (a : list A) (b : list B) j x y, nth_error a j = Some x -> nth_error b j = Some y -> In (x, y) (combine a b).
Proof. induction a as [|z a IH]; intros [|w b] [|j] x y Hx Hy; simpl in *; try discriminate; [left; congruence|right; eauto]. Qed.
Lemma combine_map2 : forall {A B C} (R : C -> C -> Prop) (f : A -> C) (h : A * B -> C) (a : list A) (b : list B), length a = length b ->
  (forall x y, In (x, y) (combine a b) -> R (f x) (h (x, y))) -> Forall2 R (map f a) (map h (combine a b)).
Proof. induction a as [|x a IH]; intros [|y b] L H; simpl in *; try lia; constructor; auto. Qed.

Theorem call_leading : forall (ts : list stensor) ev g fn base, ts <> [] -> callable veq ts ->
  leading (evened_shapes (map s_event_shape ts)) ev g fn ->
  exists r, handle_deterministic veq anc_unwrap top_ctx (torch_fnN fn) (map PT ts) [] [] default_opts base = Ok (PT r) /\
    splates r = all_plates ts /\ s_event_shape r = ev /\ wf r /\ sparents r = map sid ts /\ sid r = base + 1 /\
    forall s e, in_range s (all_plates ts) -> valid e ev -> den r s e = el (g (map (slice (max_event ts) s) ts)) e.
Proof.
  intros ts ev g fn base Hne HC [HL Hext].
  destruct (call_spec veq anc_unwrap fn ts base default_opts Hne HC) as [us [F [_ K]]]; try reflexivity.
  set (ps := wide (all_plates ts)) in *. set (M := max_event ts) in *.
  destruct (all_plates_facts veq anc_unwrap ts HC) as [AI [AD AX]].
  set (tr := fun tu : stensor * ten V => (map (fun p => has (splates (fst tu)) (pname p)) ps, pad M (s_event_shape (fst tu)), snd tu)).
  set (l := map tr (combine ts us)).
  destruct (combine_pairs _ _ _ F) as [Ll Fin]. change (o_expand default_opts) with false in Fin.
  assert (E1 : map snd l = us) by (unfold l; rewrite map_map; cbn [snd tr]; now apply combine_snd).
  destruct (HL (map pn ps) l) as [out [O1 [O2 O3]]].
  - unfold l. rewrite map_map. cbn [fst snd tr]. rewrite evened_map. fold M. exact (combine_fst (fun t => pad M (s_event_shape t)) ts us Ll).
  - intros k r u Hin. unfold l in Hin. apply in_map_iff in Hin. destruct Hin as [[t u'] [E Hin]]. unfold tr in E. cbn [fst snd] in E. injection E; intros; subst k r u'.
    split; [now rewrite !map_length|]. destruct (Fin t u Hin) as [Hs _]. rewrite Hs. f_equal. rewrite masked_map. apply map_ext. intros p. now rewrite orb_false_r.
  - intros d Hd. rewrite map_length in Hd. destruct (nth_error ps d) as [p|] eqn:Ep; [|apply nth_error_None in Ep; lia].
    assert (Hp : In p ps) by (eapply nth_error_In; eauto). unfold ps, wide in Hp. apply filter_In in Hp. destruct Hp as [Hp Hw]. apply Nat.ltb_lt in Hw. split.
    + rewrite (nth_indep _ 0 (pn p)) by (now rewrite map_length). rewrite (map_nth pn). rewrite (nth_error_nth _ _ _ Ep). lia.
    + assert (Hn : In (pname p) (N (all_plates ts))) by now apply in_map. apply AX in Hn. destruct Hn as [t [Ht Hn]].
      destruct (In_nth_error _ _ Ht) as [j Hj]. assert (Lj : j < length us) by (rewrite <- Ll; apply nth_error_Some; congruence).
      destruct (nth_error us j) as [u|] eqn:Hu; [|apply nth_error_None in Hu; lia].
      assert (Hc : In (t, u) (combine ts us)).
      { eapply combine_nth_in; eauto. }
      exists (map (fun p => has (splates t) (pname p)) ps), (pad M (s_event_shape t)), u. split.
      * unfold l. apply in_map_iff. exists (t, u). split; auto.
      * assert (Hh : has (splates t) (pname p) = true) by now apply has_In.
        rewrite (nth_indep _ false (has (splates t) (pname p))) by (now rewrite map_length).
        rewrite (map_nth (fun p => has (splates t) (pname p))). now rewrite (nth_error_nth _ _ _ Ep).
  - rewrite E1 in O1. destruct (K out ev O1 O2) as [r [R1 [R2 [R3 [R4 [R5 [R6 [R7 R8]]]]]]]]. exists r. repeat (split; [assumption|]).
    intros s e Hs He. unfold den. rewrite R2, R3. fold ps. rewrite O3; auto.
    2:{ pose proof (wide_in_range s _ Hs) as Hw. fold ps in Hw. clear - Hw. unfold valid. induction ps as [|p ps IH]; simpl; constructor; [apply Hw; simpl; auto|].
        apply IH. intros q Hq. apply Hw. simpl; auto. }
    symmetry. apply Hext; auto.
    + rewrite map_map, evened_map. reflexivity.
    + unfold l. rewrite map_map. cbn [fst snd tr]. pose proof (wide_in_range s _ Hs) as Hw. fold ps in Hw.
      apply combine_map2; auto. intros t u Hin. unfold teq, slice. cbn [fst snd shape el]. split; auto. intros i Hi.
      destruct (Fin t u Hin) as [_ H2]. rewrite <- (H2 s i Hw Hi). f_equal. f_equal. rewrite masked_map. apply map_ext. intros p. now rewrite orb_false_r.
Qed.
End Call.
