(** Concrete straight-line programs for the examples of C82. Numbers are functions of a parameter t. *)
From Coq Require Import String List Arith Bool Lia Reals Lra FunctionalExtensionality.
From Verif Require Import Base Torch Plates Wrap Scalar Inference Graph Surrogate Sampling Straight SpecTensor SpecGraph SpecSurrogate SpecReduce SpecProgram
  Curves ReduceProofs2 BroadcastProofs ProgramWitness StraightFns SpecStraight.
Import ListNotations.
Open Scope string_scope.
Open Scope nat_scope.
Open Scope list_scope.

Definition s_recip (n : nat) : C := fun _ => (/ INR n)%R.
Lemma s_recip_sums : forall t0 n, 1 <= n -> osum (curve_ops t0) (repeat (s_recip n) n) = o_one (curve_ops t0).
Proof.
  intros t0 n Hn. apply functional_extensionality. intros t.
  assert (G : forall k, osum (curve_ops t0) (repeat (s_recip n) k) t = (INR k * / INR n)%R).
  { induction k as [|k IH]; [cbn; lra|]. cbn [repeat]. change (osum (curve_ops t0) (s_recip n :: repeat (s_recip n) k) t) with (s_recip n t + osum (curve_ops t0) (repeat (s_recip n) k) t)%R.
    rewrite IH, S_INR. unfold s_recip. lra. }
  rewrite G. cbn. apply Rinv_r. apply not_0_INR. lia.
Qed.

(** log p(v) of a Bernoulli variable with logits t * u. *)
Definition b_lp (l : list C) : C :=
  match l with [v] => bern v (fun t => t) | v :: u :: _ => bern v (fun t => (t * u t)%R) | _ => fun _ => 0%R end.
Definition bit (k j : nat) : C := fun _ => num (Nat.testbit j k).
Definition bits (j : nat) : ten C := mkten [2] (fun i => bit (nth 0 i 0) j).
Definition one_bit (j : nat) : ten C := tscalar (bit 0 j).
Definition times (l : list C) : C := match l with [a; b] => fun t => (a t * b t)%R | _ => fun _ => 0%R end.
Definition plus (l : list C) : C := match l with [a; b] => fun t => (a t + t * b t)%R | _ => fun _ => 0%R end.
Definition first (l : list C) : C := match l with a :: _ => a | _ => fun _ => 0%R end.

Ltac fits := split; [cbn; intros r Hr; repeat (destruct Hr as [<-|Hr]; [split; [reflexivity|]; intros [|[|?]] Hd; cbn in *; first [lia|auto]|]); contradiction|
  intros [|[|?]] Hd; cbn in *; first [lia|eexists; split; [left; reflexivity|reflexivity]]].
Section Programs.
Variable t0 : R.
Let ops : sops C := curve_ops t0.

(** Two rows of data x; 3 samples of two Bernoulli variables z with logits t * x; u = sum(z * x); 2 samples of a Bernoulli
    variable y with logits t * u; the cost is y + t * u. *)
Definition rows : ten C := mkten [2; 2] (fun i _ => match i with [0; 0] => 1 | [0; _] => 2 | [_; 0] => -1 | _ => 3 end%R).
Definition vae : list (line C) := [
  (Data "x" rows, MData);
  (Draw "z" 3 [2] [0] true (elementwise b_lp), MDraw 4 bits [2] (each [2] b_lp));
  (Call (after (sum_last ops 1) (elementwise times)) [1; 0], MCall [] (then_ [2] (sum_all ops) (each [2] times)));
  (Draw "y" 2 [] [2] true (elementwise b_lp), MDraw 2 one_bit [] (each [] b_lp));
  (Call (elementwise plus) [3; 2], MCall [] (each [] plus))].

Lemma bern_one : forall u t, (exp (bern (fun _ => 1%R) u t) = sig (u t) /\ exp (bern (fun _ => 0%R) u t) = 1 - sig (u t))%R.
Proof.
  intros u t. destruct (sig_pos (u t)) as [H1 H2]. unfold bern. split.
  - replace (1 * ln (sig (u t)) + (1 - 1) * ln (1 - sig (u t)))%R with (ln (sig (u t))) by ring. apply exp_ln. lra.
  - replace (0 * ln (sig (u t)) + (1 - 0) * ln (1 - sig (u t)))%R with (ln (1 - sig (u t))) by ring. apply exp_ln. lra.
Qed.
Lemma z_sums : forall env, shape (nth 0 env (scalar0 ops)) = [2] ->
  osum ops (map (fun j => curve_exp (density ops env (nth 1 vae (Data "" rows, MData)) (outcome ops [] (nth 1 vae (Data "" rows, MData)) j))) (seq 0 4)) = o_one ops.
Proof.
  intros env E. apply functional_extensionality. intros t. unfold density, evened, padded_to, rank, named. cbn [nth vae snd fst args_of map]. rewrite E. cbn.
  unfold curve_exp, bit. cbn. rewrite !Rplus_0_r, !exp_plus.
  set (X := nth 0 env (scalar0 ops)). cbn [el].
  destruct (bern_one (fun t => t * el X [0%nat] t)%R t) as [A1 A2]. destruct (bern_one (fun t => t * el X [1%nat] t)%R t) as [B1 B2].
  unfold bern in *. cbn in *. rewrite !A1, !A2, !B1, !B2. ring.
Qed.
Definition coin (name : string) (n : nat) (args : list nat) : line C :=
  (Draw name n [] args true (elementwise b_lp), MDraw 2 one_bit [] (each [] b_lp)).
Lemma coin_sums : forall name n a env, shape (nth a env (scalar0 ops)) = [] ->
  osum ops (map (fun j => curve_exp (density ops env (coin name n [a]) (outcome ops [] (coin name n [a]) j))) (seq 0 2)) = o_one ops.
Proof.
  intros name n a env E. apply functional_extensionality. intros t. unfold coin, density, evened, padded_to, rank, named. cbn [snd fst args_of map]. rewrite E. cbn.
  unfold curve_exp, bit. cbn. rewrite !Rplus_0_r.
  set (X := nth a env (scalar0 ops)). destruct (bern_one (fun t => t * el X [] t)%R t) as [A1 A2]. unfold bern in *. cbn in *. rewrite A1, A2. ring.
Qed.
Lemma coin_sums0 : forall name n env,
  osum ops (map (fun j => curve_exp (density ops env (coin name n []) (outcome ops [] (coin name n []) j))) (seq 0 2)) = o_one ops.
Proof.
  intros name n env. apply functional_extensionality. intros t. unfold coin, density, evened, padded_to, rank, named. cbn.
  unfold curve_exp, bit. cbn. rewrite !Rplus_0_r.
  destruct (bern_one (fun t => t)%R t) as [A1 A2]. unfold bern in *. cbn in *. rewrite A1, A2. ring.
Qed.
Lemma vae_ok : straight_ok ops curve_exp vae.
Proof.
  split; [repeat constructor; cbn; intuition discriminate|]. intros i x Hx.
  destruct i as [|[|[|[|[|i]]]]]; cbn in Hx; try (injection Hx as <-); try (destruct i; discriminate Hx); (split; [cbn; intros a Ha; lia|]).
  - exists 2, [2]. split; [reflexivity|lia].
  - split; [lia|]. split; [apply (elementwise_leading ops); fits|]. split; [|discriminate].
    intros s r. apply z_sums. reflexivity.
  - split; [discriminate|]. apply after_leading; [apply (elementwise_leading ops); fits|apply (sum_leading ops [2])].
  - split; [lia|]. split; [apply (elementwise_leading ops); fits|]. split; [|discriminate].
    intros s r. apply (coin_sums "y" 2 2). reflexivity.
  - split; [discriminate|]. apply (elementwise_leading ops); fits.
Qed.
Lemma vae_skips : no_skips s_recip vae.
Proof.
  intros i x Hx Hs. destruct i as [|[|[|[|[|i]]]]]; cbn in Hx; try (injection Hx as <-); try (destruct i; discriminate Hx); left; cbn; intros p Hp;
    intuition (subst; cbn; lia).
Qed.
(** The expected cost as a formula. *)
Definition Rsum {A} (l : list A) (f : A -> R) : R := fold_right (fun a s => f a + s)%R 0%R l.
Definition pbit (b : R) (u : R) : R := (b * sig u + (1 - b) * (1 - sig u))%R.
Definition vae_cost (t : R) : R :=
  Rsum [(1, 2); (-1, 3)]%R (fun x => / 2 * Rsum [(0, 0); (1, 0); (0, 1); (1, 1)]%R (fun z =>
    pbit (fst z) (t * fst x) * pbit (snd z) (t * snd x) * (let u := fst z * fst x + snd z * snd x in sig (t * u) + t * u)))%R.
Lemma bern_p : forall b, b = 0%R \/ b = 1%R -> forall u, exp (b * ln (sig u) + (1 - b) * ln (1 - sig u)) = pbit b u.
Proof.
  intros b [->| ->] u; destruct (bern_one (fun _ => u) 0%R) as [A1 A2]; unfold bern in *; unfold pbit; [rewrite A2|rewrite A1]; ring.
Qed.
Lemma vae_expected : forall t, expected ops curve_exp s_recip vae [] (total_cost ops [4]) t = vae_cost t.
Proof.
  intros t. cbn. unfold curve_exp, bern, bit, s_recip. cbn. rewrite !Rplus_0_r, !exp_plus.
  assert (P : forall b, b = 0%R \/ b = 1%R -> forall u, (exp (b * ln (sig u)) * exp ((1 - b) * ln (1 - sig u)))%R = pbit b u)
    by (intros b Hb u; rewrite <- exp_plus; now apply bern_p).
  rewrite !(P 0%R), !(P 1%R) by auto. replace (1 + 1)%R with 2%R by ring.
  unfold vae_cost, Rsum, pbit. cbn [fold_right fst snd]. cbv zeta. ring.
Qed.

(** 2 samples of a Bernoulli variable z, for each of them 1 sample of x with logits t * z, and 3 samples of y with logits t * x; the
    cost is y. *)
Definition chain (n : nat) : list (line C) := [coin "z" 2 []; coin "x" n [0]; coin "y" 3 [1]; (Call (elementwise first) [2], MCall [] (each [] first))].
Lemma chain_ok : forall n, 1 <= n -> straight_ok ops curve_exp (chain n).
Proof.
  intros n Hn. split; [repeat constructor; cbn; intuition discriminate|]. intros i x Hx.
  destruct i as [|[|[|[|i]]]]; cbn in Hx; try (injection Hx as <-); try (destruct i; discriminate Hx); (split; [cbn; intros a Ha; lia|]).
  - split; [lia|]. split; [apply (elementwise_leading ops); fits|]. split; [|discriminate]. intros s r. apply (coin_sums0 "z" 2).
  - split; [lia|]. split; [apply (elementwise_leading ops); fits|]. split; [|discriminate]. intros s r. apply (coin_sums "x" n 0). reflexivity.
  - split; [lia|]. split; [apply (elementwise_leading ops); fits|]. split; [|discriminate]. intros s r. apply (coin_sums "y" 3 1). reflexivity.
  - split; [discriminate|]. apply (elementwise_leading ops); fits.
Qed.
Lemma chain_fails : forall fuel w, 10 <= fuel ->
  script (S := unit) (fun _ _ => true) c_anc s_recip ops curve_exp (fun _ => None) fuel (drawn_in ops (chain 1) w) (map fst (chain 1)) [3] tt 100 = Err ValueError.
Proof.
  intros fuel w Hf. do 10 (destruct fuel as [|fuel]; [lia|]). vm_compute. reflexivity.
Qed.
End Programs.
