(** Several threads using containers of one type. Models no line of /repo: it is the client.

    A program first builds two containers a and b with some history of calls. Then any number of
    threads run at the same time: a reader makes calls that only look at a and b; a
    worker constructs two containers of its own, runs any history on them, and destroys them. *)
From Verif Require Export Threads HistoryV.

Inductive client (Op : Type) := Reader (ops : list (bool * Op)) | Worker (ops : list (bool * Op)).
Global Arguments Reader {_} _.
Global Arguments Worker {_} _.

(** for containers whose object never changes its address (History.v) *)
Definition keep_this {C Op Out} (step : nat → loc → loc → Op → M (gmap loc C) (loc * Out))
    (fuel : nat) (this other : loc) (op : Op) : M (gmap loc C) (loc * loc * Out) :=
  let! (o, r) := step fuel this other op in ret (this, o, r).

Section clients.
  Context {C Hd St Op Out : Type}.
  Notation heap := (gmap loc C).
  Context (new : Allocator C → M heap Hd) (destroy : Allocator C → nat → Hd → M heap unit)
          (step : Allocator C → nat → Hd → Hd → Op → M heap (Hd * Hd * Out))
          (init : St) (spec : St → St → Op → option (St * St * Out)).
  (** the calls that only look at containers; the states in which a container may be destroyed *)
  Context (reads : Op → Prop) (fin : St → Prop).

  Definition client_code (al : Allocator C) (fuel : nat) (a b : Hd) (c : client Op) : M heap (list Out) :=
    match c with
    | Reader ops => let! (_, rs) := v_run (step al) fuel a b ops in ret rs
    | Worker ops => v_program (new al) (destroy al) (step al) fuel ops
    end.
  (** what the thread must observe when a and b hold [xs] and [ys] *)
  Definition expects (xs ys : St) (c : client Op) (outs : list Out) : Prop :=
    match c with
    | Reader ops => Forall (λ o, reads o.2) ops ∧ ∃ r, h_spec spec xs ys ops = Some (r, outs)
    | Worker ops => ∃ xs' ys', h_spec spec init init ops = Some (xs', ys', outs) ∧ fin xs' ∧ fin ys'
    end.

  (** Whatever the schedule, and whatever addresses [new] returns in whichever thread: there is
      no data race and no undefined behaviour, every thread terminates and observes what it would
      have observed alone, and at the end the memory is what it was before the threads started;
      a and b can still be destroyed, and then nothing is left. *)
  Definition threads_correct (ops0 : list (bool * Op)) (cs : list (client Op)) : Prop :=
    ∀ xs ys outs0 outs,
      h_spec spec init init ops0 = Some (xs, ys, outs0) →
      Forall2 (expects xs ys) cs outs →
      ∃ F, ∀ fuel, F ≤ fuel → ∀ al : Allocator C,
        runs nothing (v_prefix (new al) (step al) fuel ops0) (λ '(a, b, outs0') h,
          outs0' = outs0 ∧
          (∃ ps, Forall2 (λ c p, performs (λ al', client_code al' fuel a b c) p) cs ps ∧
            ∀ hf, h ##ₘ hf → every_schedule (h ∪ hf) ps outs (λ h', h' = h ∪ hf)) ∧
          (fin xs → fin ys → ∀ al', runs (λ h', h' = h) (destroy al' fuel a ;! destroy al' fuel b) (λ _, nothing))).
End clients.
