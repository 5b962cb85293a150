(** The global wrapping context of storch/wrappers.py as a state machine. *)
From Coq Require Import String List Arith Bool Lia.
From Verif Require Import Base.
Import ListNotations.

(** The module globals (storch/wrappers.py:17-22). Plates and parent tensors are represented by identities. *)
Record gctx : Type := mkG {
  g_stochastic : bool;            (* _context_stochastic *)
  g_deterministic : nat;          (* _context_deterministic; starts at 0 and every decrement follows an increment *)
  g_parents : list nat;           (* _stochastic_parents *)
  g_name : option string;         (* _context_name *)
  g_links : list nat;             (* _plate_links *)
  g_ignore : bool                 (* _ignore_wrap *)
}.
Definition g_init : gctx := mkG false 0 [] None [] false.

Definition set_det (n : nat) (g : gctx) : gctx :=
  mkG (g_stochastic g) n (g_parents g) (g_name g) (g_links g) (g_ignore g).
Definition set_ignore (b : bool) (g : gctx) : gctx :=
  mkG (g_stochastic g) (g_deterministic g) (g_parents g) (g_name g) (g_links g) b.
Definition enter_stoch (parents : list nat) (name : string) (links : list nat) (g : gctx) : gctx :=
  mkG true (g_deterministic g) parents (Some name) links (g_ignore g).
Definition leave_stoch (g : gctx) : gctx :=
  mkG false (g_deterministic g) [] None [] (g_ignore g).

(** What _prepare_args (storch/wrappers.py:177-272) does in a call, as far as the context is concerned: raise, or return
    the identities of parents and plates. *)
Definition prepared : Type := res (list nat * list nat).

(** Terminating Python code that uses the wrappers. [PLook] lets the code depend on the context in any way. *)
Inductive prog : Type :=
| PDone                                                       (* nothing more to do *)
| PRaise (e : exn)                                            (* raise e *)
| PSeq (p q : prog)                                           (* p; q *)
| PTry (p : prog) (h : exn -> prog)                           (* try: p except e: h(e) *)
| PLook (k : gctx -> prog)                                    (* code depending on the context *)
| PTop                                                        (* the check of denote_independent, gather_samples *)
| PDet (prep : prepared) (body : prog) (out : option exn)     (* call of a @deterministic function; [out]: wrapping the
                                                                 outputs raises *)
| PStoch (name : string) (prep : prepared) (body : prog) (out : option exn)   (* call of a @stochastic function *)
| PIgnore (body : prog).                                      (* with ignore_wrapping(): body *)

(** Execution: the context afterwards and the exception that escapes, if any.
    PTop: storch/inference.py:26-32 and 54-60.
    PDet: storch/wrappers.py:341-390.
    PStoch: storch/wrappers.py:492-537.
    PIgnore: storch/wrappers.py:570-574; @contextmanager re-raises an exception of the body at the yield, and there
    is no try there, so line 574 is not reached. *)
Fixpoint run (p : prog) (g : gctx) : gctx * option exn :=
  match p with
  | PDone => (g, None)
  | PRaise e => (g, Some e)
  | PSeq p q => match run p g with
                | (g', None) => run q g'
                | (g', Some e) => (g', Some e)
                end
  | PTry p h => match run p g with
                | (g', None) => (g', None)
                | (g', Some e) => run (h e) g'
                end
  | PLook k => run (k g) g
  | PTop => if g_stochastic g || (0 <? g_deterministic g) then (g, Some RuntimeError) else (g, None)
  | PDet prep body out =>
      if g_stochastic g then (g, Some NotImplementedError)
      else match prep with
           | Err e => (g, Some e)
           | Ok ([], _) => run body g
           | Ok (_ :: _, _) =>
               let (g1, r) := run body (set_det (S (g_deterministic g)) g) in
               let g2 := set_det (g_deterministic g1 - 1) g1 in
               match r with
               | Some e => (g2, Some e)
               | None => if g_ignore g2 then (g2, None) else (g2, out)
               end
           end
  | PStoch name prep body out =>
      if g_stochastic g || (0 <? g_deterministic g) then (g, Some RuntimeError)
      else match prep with
           | Err e => (g, Some e)
           | Ok (parents, plates) =>
               let (g1, r) := run body (enter_stoch parents name plates g) in
               let g2 := leave_stoch g1 in
               match r with
               | Some e => (g2, Some e)
               | None => (g2, out)
               end
           end
  | PIgnore body =>
      match run body (set_ignore true g) with
      | (g1, None) => (set_ignore false g1, None)
      | (g1, Some e) => (g1, Some e)
      end
  end.
