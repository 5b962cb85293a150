(** Proofs about reducing unique plates. *)
From Coq Require Import String List Arith Bool Lia.
From Verif Require Import Base Torch Plates Unique UniqueReduce SpecUnique UniqueProofs2.
Import ListNotations.

Section UniqueReduceProofs.
Context {V : Type}.
Variable veq : V -> V -> bool.
Variable order : list (@uplate V) -> res (list (@uplate V)).
Variable plain_reduce : plate V -> @utensor V -> res (@utensor V).
Hypothesis Horder : forall l r, order l = Ok r -> incl r l /\ (l <> [] -> r <> []).

Lemma undo_plates : forall id s n sh inv ip (a b : @utensor V), plate_undo veq id (UUniq s n sh inv ip) a = Ok b -> u_plates b = sh ++ u_plates a.
Proof.
  intros id s n sh inv ip a b H. cbn in H. repeat match type of H with bind ?x _ = Ok _ => destruct x as [?|] eqn:?; [|discriminate]; cbn [bind] in H end.
  unfold u_tensor in H. destruct (mk_tensor _ _ _ _ _); [|discriminate]. cbn in H. now injection H as <-.
Qed.

Lemma undo_collects : forall id p (a : @utensor V), u_collect veq (u_plates a) = Err ValueError -> exists e, plate_undo veq id p a = Err e.
Proof.
  intros id [q|s n sh inv ip] a H; cbn; [eauto|]. destruct (get_plate_dim_index _ _); cbn [bind]; [|eauto]. rewrite H. cbn [bind]. eauto.
Qed.

Lemma same_refl : forall p : @uplate V, (forall q, p = UPlain q -> peq veq q q = true) -> same_uplate veq p p.
Proof. intros [q|s n sh inv ip] H; constructor. now apply H. Qed.

Theorem reduce_fails : forall s n sh inv ip (a : @utensor V), In (UUniq s n sh inv ip) (u_plates a) -> sh <> [] ->
  (forall q, In (UPlain q) sh -> peq veq q q = true) ->
  forall fuel, exists e, any_reduce veq order plain_reduce (S (S fuel)) (UUniq s n sh inv ip) a = Some (Err e).
Proof.
  intros s n sh inv ip a Hin Hne Hq fuel. set (U := UUniq s n sh inv ip) in *. cbn [any_reduce]. fold U. destruct (plate_undo veq 0 U a) as [b|e] eqn:E; [|unfold U; eauto].
  unfold U at 1. pose proof (undo_plates _ _ _ _ _ _ _ _ E) as Hb.
  assert (Ht : to_reduce sh b = sh) by (destruct sh; [congruence|reflexivity]). rewrite Ht.
  destruct (order sh) as [l|e] eqn:Eo; [|eauto]. destruct (Horder _ _ Eo) as [Hi Hl]. destruct l as [|q l]; [now destruct (Hl Hne)|].
  assert (Hqs : In q sh) by (apply Hi; now left).
  assert (Hc : u_collect veq (u_plates b) = Err ValueError).
  { apply collect_exact. exists U, q, q. rewrite Hb. split; [apply in_app_iff; right; exact Hin|]. split; [apply in_app_iff; now left|]. split; [now constructor|].
    apply same_refl. intros q' ->. now apply Hq. }
  cbn [each]. destruct q as [q|s' n' sh' inv' ip'].
  - cbn [any_reduce]. rewrite Hc. cbn [bind]. eauto.
  - cbn [any_reduce]. destruct (undo_collects 0 (UUniq s' n' sh' inv' ip') b Hc) as [e ->]. eauto.
Qed.

Theorem reduce_endless : forall fuel s n inv ip (a r : @utensor V), u_plates a = [UUniq s n [] inv ip] ->
  any_reduce veq order plain_reduce fuel (UUniq s n [] inv ip) a <> Some (Ok r).
Proof.
  induction fuel as [|fuel IH]; intros s n inv ip a r Ha; [discriminate|]. cbn [any_reduce]. destruct (plate_undo veq 0 _ a) as [b|e] eqn:E; [|discriminate].
  pose proof (undo_plates _ _ _ _ _ _ _ _ E) as Hb. cbn in Hb. rewrite Ha in Hb. cbn [to_reduce]. rewrite Hb.
  destruct (order _) as [l|e] eqn:Eo; [|discriminate]. destruct (Horder _ _ Eo) as [Hi Hl]. destruct l as [|q l]; [exfalso; apply Hl; [discriminate|reflexivity]|].
  destruct (Hi q (or_introl eq_refl)) as [<-|[]]. cbn [each]. destruct (any_reduce _ _ _ fuel _ b) as [[b'|e]|] eqn:Er; [|discriminate|discriminate]. exfalso. eapply IH; eauto.
Qed.
End UniqueReduceProofs.
