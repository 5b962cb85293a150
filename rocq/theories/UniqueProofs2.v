(** Selecting with the inverse indices, and tensors with a plate and a unique plate that shrank it. *)
From Coq Require Import String List Arith Bool Lia.
From Verif Require Import Base Torch Plates ListLemmas IndexLemmas SpecTensor Unique SpecUnique WrapProofs UniqueProofs.
Import ListNotations.
Open Scope nat_scope.

Section UQ2.
Context {V : Type}.
Variable veq : V -> V -> bool.
Variable tu : option nat -> ten V -> res (ten V * ten nat).
Notation plate := (plate V).
Notation utensor := (@utensor V).
Notation uplate := (@uplate V).

Lemma has_shrunken_deep : forall (u q : uplate) p, shrunk u q -> q = UPlain p -> peq veq p p = true -> has_shrunken veq u (UPlain p) = true.
Proof.
  intros u q p H -> Hp. remember (UPlain p) as x eqn:E. induction H as [s n sh inv ip x Hi|s n sh inv ip q x Hi H IH]; subst x; simpl; apply existsb_exists.
  - exists (UPlain p). split; [exact Hi|]. simpl. now rewrite Hp.
  - exists q. split; [exact Hi|]. rewrite (IH eq_refl). apply orb_true_r.
Qed.
Lemma shrunk_uq : forall u p : uplate, shrunk u p -> is_uq u = true.
Proof. intros u p H. destruct H; reflexivity. Qed.
Lemma collect_rejects : forall l (u : uplate) p, In u l -> In (UPlain p) l -> shrunk u (UPlain p) -> peq veq p p = true -> u_collect veq l = Err ValueError.
Proof.
  intros l u p H1 H2 H3 H4. unfold u_collect. replace (existsb _ l) with true; [reflexivity|]. symmetry. apply existsb_exists. exists u. split; [exact H1|].
  rewrite (shrunk_uq _ _ H3). simpl. apply existsb_exists. exists (UPlain p). split; [exact H2|]. exact (has_shrunken_deep u _ p H3 eq_refl H4).
Qed.
Theorem mixed_rejected : forall id name d (a : utensor) u p, In u (u_plates a) -> In (UPlain p) (u_plates a) -> shrunk u (UPlain p) ->
  peq veq p p = true -> unique veq tu id name d a = Err ValueError.
Proof. intros. unfold unique. now rewrite (collect_rejects (u_plates a) u p). Qed.

Lemma ueq_same : forall p q : uplate, ueq veq p q = true <-> same_uplate veq p q.
Proof.
  intros p q; split.
  - destruct p as [p|s n sh inv ip], q as [q|s' n' sh' inv' ip']; simpl; intros H.
    + now constructor.
    + destruct (pcls p) eqn:E1; [|discriminate]. destruct (pweight p) eqn:E2; rewrite ?andb_false_r in H; try discriminate.
      rewrite andb_true_r in H. apply andb_prop in H. destruct H as [A B]. apply String.eqb_eq in A. apply Nat.eqb_eq in B. subst. eapply SU_left; eauto.
    + destruct (pweight q) eqn:E2; rewrite ?andb_false_r in H; try discriminate.
      rewrite andb_true_r in H. apply andb_prop in H. destruct H as [A B]. apply String.eqb_eq in A. apply Nat.eqb_eq in B. subst. eapply SU_right; eauto.
    + apply andb_prop in H. destruct H as [A B]. apply String.eqb_eq in A. apply Nat.eqb_eq in B. subst. constructor.
  - intros H. destruct H as [p q H| |p w sh inv ip E1 E2|p w sh inv ip E2]; simpl; rewrite ?String.eqb_refl, ?Nat.eqb_refl; auto; [rewrite E1, E2|rewrite E2]; reflexivity.
Qed.
Fixpoint usize (u : uplate) : nat := match u with UPlain _ => 0 | UUniq _ _ sh _ _ => S (fold_right (fun x n => usize x + n) 0 sh) end.
Lemma usize_in : forall q (l : list uplate), In q l -> usize q <= fold_right (fun x n => usize x + n) 0 l.
Proof. induction l as [|x l IH]; simpl; intros H; [tauto|]. destruct H as [->|H]; [lia|]. specialize (IH H). lia. Qed.
Lemma has_shrunken_spec : forall k (u p : uplate), usize u <= k -> has_shrunken veq u p = true <-> exists q, shrunk u q /\ same_uplate veq p q.
Proof.
  induction k as [|k IH]; intros [r|s n sh inv ip] p Hk; simpl in Hk; try lia.
  - simpl. split; [discriminate|]. intros [q [H _]]. inversion H.
  - simpl. split; [discriminate|]. intros [q [H _]]. inversion H.
  - simpl. rewrite existsb_exists. split.
    + intros [q [Hq H]]. apply orb_prop in H. destruct H as [H|H].
      * exists q. split; [now apply Sh_here|now apply ueq_same].
      * apply IH in H; [|pose proof (usize_in q sh Hq); lia]. destruct H as [x [H1 H2]]. exists x. split; [eapply Sh_deep; eauto|exact H2].
    + intros [x [H1 H2]]. inversion H1 as [? ? ? ? ? ? Hi|? ? ? ? ? q ? Hi Hs]; subst.
      * exists x. split; [exact Hi|]. apply ueq_same in H2. now rewrite H2.
      * exists q. split; [exact Hi|]. apply orb_true_intro. right. apply IH; [pose proof (usize_in q sh Hi); lia|]. eauto.
Qed.
(** The collection of the plates of one tensor objects exactly when one of them shrank another. *)
Theorem collect_exact : forall l : list uplate, u_collect veq l = Err ValueError <-> exists u p q, In u l /\ In p l /\ shrunk u q /\ same_uplate veq p q.
Proof.
  intros l. unfold u_collect. destruct (existsb _ l) eqn:E.
  - split; [intros _|reflexivity]. apply existsb_exists in E. destruct E as [u [Hu E]]. apply andb_prop in E. destruct E as [_ E].
    apply existsb_exists in E. destruct E as [p [Hp E]]. apply (has_shrunken_spec _ u p (le_n _)) in E. destruct E as [q [H1 H2]]. eauto 8.
  - split; [discriminate|]. intros [u [p [q [Hu [Hp [H1 H2]]]]]]. exfalso. assert (C : existsb (fun p => is_uq p && existsb (has_shrunken veq p) l) l = true); [|congruence].
    apply existsb_exists. exists u. split; [exact Hu|]. rewrite (shrunk_uq _ _ H1). simpl. apply existsb_exists. exists p. split; [exact Hp|].
    apply (has_shrunken_spec _ u p (le_n _)). eauto.
Qed.
Lemma collect_cases : forall l : list uplate, u_collect veq l = Err ValueError \/ u_collect veq l = Ok tt.
Proof. intros l. unfold u_collect. destruct (existsb _ l); auto. Qed.

Lemma swap_same : forall {A} (l : list A), swapl 0 0 l = l.
Proof. intros A [|x l]; reflexivity. Qed.

Theorem select_spec : forall id id' t ps s m P inv ip n (a b : utensor), 1 < m -> shape inv = [n] ->
  u_tensor id t ps [UUniq s m [UPlain P] inv ip] = Ok a -> plate_undo veq id' (UUniq s m [UPlain P] inv ip) a = Ok b ->
  forall i e, valid (i :: e) (shape (st (us b))) -> el (st (us b)) (i :: e) = el t (el inv [i] :: e).
Proof.
  intros id id' t ps s m P inv ip n a b Hm Hn HA HB i e Hv. unfold u_tensor in HA. cbn [map as_plate] in HA.
  destruct (mk_tensor id t ps _ false) as [x|] eqn:EX; [|discriminate]. injection HA as <-. destruct (mk_tensor_fields _ _ _ _ _ _ EX) as [_ [X2 [X3 [_ [_ [X6 X7]]]]]].
  assert (N1 : (m =? 1) = false) by (apply Nat.eqb_neq; lia). assert (L1 : (1 <? m) = true) by now apply Nat.ltb_lt.
  unfold nonone in X6, X7. cbn [filter pn] in X6, X7. rewrite N1 in X6, X7. cbn [negb length map pn app] in X6, X7.
  unfold plate_undo in HB. cbn [us u_plates] in HB. unfold get_plate_dim_index, multi_dim_plates in HB. rewrite X3 in HB. unfold mdp in HB. cbn [filter pn] in HB. rewrite L1 in HB.
  cbn [find_dim pname] in HB. rewrite String.eqb_refl in HB. cbn [bind] in HB.
  destruct (u_collect veq _); [|discriminate]. cbn [bind] in HB. rewrite X6, X2 in HB. cbn [Nat.sub] in HB.
  unfold transpose in HB. rewrite swap_same in HB. unfold ndim in HB. rewrite X7 in HB. cbn [length] in HB. change (0 <? S _) with true in HB. cbn [andb bind] in HB.
  destruct (u_collect veq ip); [|discriminate]. cbn [bind] in HB. unfold index_select0 in HB. cbn [shape] in HB. rewrite Hn in HB.
  destruct (forallb _ _); [|discriminate]. cbn [bind shape skipn] in HB. unfold reshape in HB. cbn [map un app shape] in HB.
  destruct (lprod (pn P :: s_event_shape x) =? lprod (n :: s_event_shape x)) eqn:EL; [|discriminate]. cbn [bind] in HB. unfold u_tensor in HB.
  destruct (mk_tensor id' _ _ _ _) as [y|] eqn:EY; [|discriminate]. injection HB as <-. destruct (mk_tensor_fields _ _ _ _ _ _ EY) as [_ [Y2 _]].
  cbn [us] in *. rewrite Y2 in *. cbn [shape el] in *. apply Nat.eqb_eq in EL.
  inversion Hv as [|? ? ? ? V1 V2]; subst. assert (E : n = pn P).
  { assert (0 < lprod (s_event_shape x)) by (clear -V2; induction V2; [unfold lprod; simpl; lia|unfold lprod in *; simpl; nia]). unfold lprod in *. simpl in EL. nia. }
  rewrite E, unravel_ravel by exact Hv. cbn [hd tl]. now rewrite swap_same.
Qed.

(** With a second plate, the indices select along that plate. *)
Theorem other_plate : forall id id' t ps s m P inv q Y n (a : utensor), 1 < m -> 1 < pn Y -> shape inv = [n] -> s <> pname P -> pname Y <> pname P ->
  u_tensor id t ps [UUniq s m [UPlain P] inv [UPlain q]; UPlain Y] = Ok a ->
  (exists i, i < n /\ pn Y <= el inv [i]) -> plate_undo veq id' (UUniq s m [UPlain P] inv [UPlain q]) a = Err IndexError.
Proof.
  intros id id' t ps s m P inv q Y n a Hm HY Hn Hs HYP HA [i [Hi Hle]]. unfold u_tensor in HA. cbn [map as_plate] in HA.
  destruct (mk_tensor id t ps _ false) as [x|] eqn:EX; [|discriminate]. injection HA as <-. destruct (mk_tensor_fields _ _ _ _ _ _ EX) as [_ [X2 [X3 [_ [_ [X6 X7]]]]]].
  assert (N1 : (m =? 1) = false) by (apply Nat.eqb_neq; lia). assert (L1 : (1 <? m) = true) by now apply Nat.ltb_lt.
  assert (N2 : (pn Y =? 1) = false) by (apply Nat.eqb_neq; lia). assert (L2 : (1 <? pn Y) = true) by now apply Nat.ltb_lt.
  unfold nonone in X6, X7. cbn [filter pn] in X6, X7. rewrite N1, N2 in X6, X7. cbn [negb length map pn app] in X6, X7.
  unfold plate_undo. cbn [us u_plates]. unfold get_plate_dim_index, multi_dim_plates. rewrite X3. unfold mdp. cbn [filter pn]. rewrite L1, L2.
  cbn [find_dim pname]. rewrite String.eqb_refl. cbn [bind].
  assert (C1 : u_collect veq [UUniq s m [UPlain P] inv [UPlain q]; UPlain Y] = Ok tt).
  { unfold u_collect. cbn [existsb is_uq has_shrunken ueq andb orb]. apply String.eqb_neq in Hs. rewrite Hs. cbn [andb orb].
    destruct (peq veq Y P) eqn:E; [apply peq_name in E; congruence|reflexivity]. }
  rewrite C1. cbn [bind]. rewrite X6, X2. unfold transpose, ndim. rewrite X7. cbn [length Nat.sub]. change (0 <? _) with true. change (1 <? S (S _)) with true. cbn [andb bind].
  change (u_collect veq [UPlain q]) with (@Ok unit tt). cbn [bind]. unfold index_select0. cbn [shape]. unfold swapl. cbn [Nat.eqb]. cbn.
  rewrite Hn. replace (forallb _ _) with false; [reflexivity|]. symmetry. apply not_true_iff_false. intros H. rewrite forallb_forall in H. specialize (H i ltac:(apply in_seq; lia)).
  apply Nat.ltb_lt in H. lia.
Qed.
End UQ2.
