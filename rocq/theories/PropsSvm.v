(** GENERATED by tools/genprops.py from SvmRuns.v: property theorems only.
    Every proof is the lemma of the same statement proved there. *)
From Verif Require Import SvmSpec SvmRuns.

Section sorted_vector_map.
  Context {K T : Type} `{Allocator (svcell K T)}
    (keq comp : K → K → bool) (dfltT : T) (ulim : nat).

  (** Whole programs on two sorted_vector_maps: every history observes what the abstract
     ordered map prescribes (within [sv_spec]: fewer entries than [ulim], no insertion of a new
     key into a full array of capacity 1); no access leaves the arrays, nothing else goes wrong
     and no memory is left. *)
  Theorem C38_svm_history :
    ∀ ops,
 key_order keq comp →
    v_correct sv_new sv_destroy (sv_step keq comp dfltT ulim) ([], 0) (sv_spec keq comp dfltT ulim) (λ _, True) ops.
  Proof. first [exact svm_history | apply svm_history | intros; eapply svm_history; eassumption]. Qed.

  (** Whole programs on two sorted_vector_maps: every history observes what the abstract
     ordered map prescribes (within [sv_spec]: fewer entries than [ulim], no insertion of a new
     key into a full array of capacity 1); no access leaves the arrays, nothing else goes wrong
     and no memory is left. *)
  Theorem C39_svm_history_partial :
    ∀ ops,
 key_order keq comp →
    v_correct sv_new sv_destroy (sv_step keq comp dfltT ulim) ([], 0) (sv_spec keq comp dfltT ulim) (λ _, True) ops.
  Proof. first [exact svm_history | apply svm_history | intros; eapply svm_history; eassumption]. Qed.

  (** Whole programs on two sorted_vector_maps: every history observes what the abstract
     ordered map prescribes (within [sv_spec]: fewer entries than [ulim], no insertion of a new
     key into a full array of capacity 1); no access leaves the arrays, nothing else goes wrong
     and no memory is left. *)
  Theorem C61_svm_history_partial :
    ∀ ops,
 key_order keq comp →
    v_correct sv_new sv_destroy (sv_step keq comp dfltT ulim) ([], 0) (sv_spec keq comp dfltT ulim) (λ _, True) ops.
  Proof. first [exact svm_history | apply svm_history | intros; eapply svm_history; eassumption]. Qed.

  (** ... and what is in memory after it. *)
  Theorem C38_svm_reaches :
    ∀ ops,
 key_order keq comp →
    v_reaches sv_new (sv_step keq comp dfltT ulim) ([], 0) (sv_spec keq comp dfltT ulim)
      (λ v s h, ∃ les : list (loc * (K * T)), les.*2 = s.1 ∧ sv_end v = s.2 ∧ ascending comp s.1 ∧ is_svm v les h) ops.
  Proof. first [exact svm_reaches | apply svm_reaches | intros; eapply svm_reaches; eassumption]. Qed.

  (** ... and what is in memory after it. *)
  Theorem C39_svm_reaches_partial :
    ∀ ops,
 key_order keq comp →
    v_reaches sv_new (sv_step keq comp dfltT ulim) ([], 0) (sv_spec keq comp dfltT ulim)
      (λ v s h, ∃ les : list (loc * (K * T)), les.*2 = s.1 ∧ sv_end v = s.2 ∧ ascending comp s.1 ∧ is_svm v les h) ops.
  Proof. first [exact svm_reaches | apply svm_reaches | intros; eapply svm_reaches; eassumption]. Qed.

  (** ... and what is in memory after it. *)
  Theorem C41_svm_reaches :
    ∀ ops,
 key_order keq comp →
    v_reaches sv_new (sv_step keq comp dfltT ulim) ([], 0) (sv_spec keq comp dfltT ulim)
      (λ v s h, ∃ les : list (loc * (K * T)), les.*2 = s.1 ∧ sv_end v = s.2 ∧ ascending comp s.1 ∧ is_svm v les h) ops.
  Proof. first [exact svm_reaches | apply svm_reaches | intros; eapply svm_reaches; eassumption]. Qed.

  (** What the sequences of [svm_history] mean: keys strictly ascending, and each key has the
     value the history gives it. *)
  Theorem C38_svm_is_map :
    ∀ ops (s o : sv_state (K:=K) (T:=T)) outs,
 key_order keq comp →
    h_spec (sv_spec keq comp dfltT ulim) ([], 0) ([], 0) ops = Some (s, o, outs) →
    ascending comp s.1 ∧ ascending comp o.1 ∧
    ∀ k, (value_of keq k s.1, value_of keq k o.1) = values_after keq dfltT k None None ops.
  Proof. first [exact svm_is_map | apply svm_is_map | intros; eapply svm_is_map; eassumption]. Qed.

  (** The positions reported by find, lower_bound and upper_bound in an ascending sequence: all
     entries before the lower bound are less than the key and none from it on; all entries from
     the upper bound on are greater and none before it; find is the entry with the key or end(). *)
  Theorem C38_svm_positions :
    ∀ k (xs : list (K * T)) i e,
 key_order keq comp → ascending comp xs → xs !! i = Some e →
    (i < length (below comp k xs) ↔ comp e.1 k = true) ∧
    (length (not_above comp k xs) ≤ i ↔ comp k e.1 = true) ∧
    (i = pos_of keq comp k xs ↔ keq e.1 k = true).
  Proof. first [exact svm_positions | apply svm_positions | intros; eapply svm_positions; eassumption]. Qed.

  (** The binary search needs at most log2 n + 2 evaluations of its loop condition, so it
     looks at no more than log2 n + 1 entries (n > 0). *)
  Theorem C38_svm_probes :
    ∀ v (les : list (loc * (K * T))) k,
 key_order keq comp → ascending comp les.*2 →
    length les < ulim → les ≠ [] →
    runs (is_svm v les) (sv_bsearch keq comp ulim (Nat.log2 (length les) + 2) v k)
      (λ r h, r = (length (below comp k les.*2), present keq k les.*2) ∧ is_svm v les h).
  Proof. first [exact svm_probes | apply svm_probes | intros; eapply svm_probes; eassumption]. Qed.

  (** an empty map: no entry is looked at *)
  Theorem C38_svm_probes_empty :
    ∀ v k,
    runs (is_svm v []) (sv_bsearch (T:=T) keq comp ulim 1 v k) (λ r h, r = (0, false) ∧ is_svm v [] h).
  Proof. first [exact svm_probes_empty | apply svm_probes_empty | intros; eapply svm_probes_empty; eassumption]. Qed.

  (** In every state reached without constructing a map with preallocation 1 (and below
     [ulim] entries) the precondition of inserting holds: [svm_history] then says that no insertion
     leaves the array. *)
  Theorem C39_svm_room_partial :
    ∀ ops (s o : sv_state (K:=K) (T:=T)) outs,
    h_spec (sv_spec keq comp dfltT ulim) ([], 0) ([], 0) ops = Some (s, o, outs) →
    Forall (λ c, c.2 ≠ QRecreate 1) ops →
    ∀ k, (sv_fits ulim s → sv_room keq ulim k s) ∧ (sv_fits ulim o → sv_room keq ulim k o).
  Proof. first [exact svm_room | apply svm_room | intros; eapply svm_room; eassumption]. Qed.

  (** Inserting any absent key into a map of capacity 1 that holds one entry writes past
     its array. *)
  Theorem C39_svm_capacity_1_refuted :
    ∀ fuel v l e k x,
 key_order keq comp → sv_end v = 1 → 1 < ulim → 2 < fuel →
    keq e.1 k = false →
    fails (is_svm v [(l, e)]) (sv_insert keq comp ulim fuel v (EVal (k, x))) OutOfBounds.
  Proof. first [exact svm_capacity_1 | apply svm_capacity_1 | intros; eapply svm_capacity_1; eassumption]. Qed.

  (** count is inverted in every state and for every key: 0 if the key is there, 1 if
     not. *)
  Theorem C40_svm_count_refuted :
    ∀ fuel v (les : list (loc * (K * T))) k,
 key_order keq comp → ascending comp les.*2 →
    length les < ulim → length les + 2 ≤ fuel →
    runs (is_svm v les) (sv_count keq comp ulim fuel v k)
      (λ n h, n = (if present keq k les.*2 then 0 else 1) ∧ is_svm v les h).
  Proof. first [exact svm_count | apply svm_count | intros; eapply svm_count; eassumption]. Qed.

  (** equal_range of a present key is [lower_bound, upper_bound), of an absent one
     [end, end). *)
  Theorem C61_svm_equal_range_partial :
    ∀ fuel v (les : list (loc * (K * T))) k,
 key_order keq comp → ascending comp les.*2 →
    length les < ulim → length les + 2 ≤ fuel →
    runs (is_svm v les) (sv_equal_range keq comp ulim fuel v k)
      (λ r h, r = (if present keq k les.*2 then (length (below comp k les.*2), length (not_above comp k les.*2))
                   else (length les, length les)) ∧ is_svm v les h).
  Proof. first [exact svm_equal_range | apply svm_equal_range | intros; eapply svm_equal_range; eassumption]. Qed.

  (** With a positive multiple of [ulim] entries (2^32 of them) no key is ever found. *)
  Theorem C62_svm_find_overflow_refuted :
    ∀ fuel v (les : list (loc * (K * T))) k,
    ulim ≠ 0 → length les mod ulim = 0 → 0 < fuel →
    runs (is_svm v les) (sv_find keq comp ulim fuel v k) (λ i h, i = length les ∧ is_svm v les h).
  Proof. first [exact svm_find_overflow | apply svm_find_overflow | intros; eapply svm_find_overflow; eassumption]. Qed.

  (** insert, with addresses: a present key changes nothing; a new entry gets a cell of its
     own, and all others stay where they are. *)
  Theorem C41_svm_insert :
    ∀ fuel v (les : list (loc * (K * T))) k x,
 key_order keq comp → ascending comp les.*2 →
    sv_room keq ulim k (les.*2, sv_end v) → sv_end v + 2 < fuel →
    runs (is_svm v les) (sv_insert keq comp ulim fuel v (EVal (k, x))) (λ '(v', i, fresh) h,
      i = length (below comp k les.*2) ∧ fresh = negb (present keq k les.*2) ∧
      if present keq k les.*2 then v' = v ∧ is_svm v les h
      else ∃ l, is_svm v' (take i les ++ (l, (k, x)) :: drop i les) h).
  Proof. first [exact svm_insert | apply svm_insert | intros; eapply svm_insert; eassumption]. Qed.

  (** insert, with addresses: a present key changes nothing; a new entry gets a cell of its
     own, and all others stay where they are. *)
  Theorem C38_svm_insert :
    ∀ fuel v (les : list (loc * (K * T))) k x,
 key_order keq comp → ascending comp les.*2 →
    sv_room keq ulim k (les.*2, sv_end v) → sv_end v + 2 < fuel →
    runs (is_svm v les) (sv_insert keq comp ulim fuel v (EVal (k, x))) (λ '(v', i, fresh) h,
      i = length (below comp k les.*2) ∧ fresh = negb (present keq k les.*2) ∧
      if present keq k les.*2 then v' = v ∧ is_svm v les h
      else ∃ l, is_svm v' (take i les ++ (l, (k, x)) :: drop i les) h).
  Proof. first [exact svm_insert | apply svm_insert | intros; eapply svm_insert; eassumption]. Qed.

  (** Any number of calls that remove nothing: every element stays at its address with its key. *)
  Theorem C41_svm_stable :
    ∀ ops fuel v w (les los : list (loc * (K * T))) s o outs,
    key_order keq comp → ascending comp les.*2 → ascending comp los.*2 →
    Forall (λ c, keeps_elements c.2) ops →
    h_spec (sv_spec keq comp dfltT ulim) (les.*2, sv_end v) (los.*2, sv_end w) ops = Some (s, o, outs) →
    2 * (length s.1 + length o.1 + s.2 + o.2) + 3 < fuel →
    runs (both (is_svm v les) (is_svm w los)) (v_run (sv_step keq comp dfltT ulim) fuel v w ops)
      (λ '(v', w', outs') h, outs' = outs ∧ ∃ les' los',
         les'.*2 = s.1 ∧ los'.*2 = o.1 ∧ still_there les les' ∧ still_there los los' ∧
         both (is_svm v' les') (is_svm w' los') h).
  Proof. first [exact svm_stable | apply svm_stable | intros; eapply svm_stable; eassumption]. Qed.

  (** A copy has the same entries and the same capacity in cells of its own. *)
  Theorem C41_svm_copy :
    ∀ fuel v (les : list (loc * (K * T))),
 length les < fuel →
    runs (is_svm v les) (sv_copy fuel v) (λ v' h, ∃ les', les'.*2 = les.*2 ∧ sv_end v' = sv_end v ∧
      both (is_svm v les) (is_svm v' les') h).
  Proof. first [exact svm_copy | apply svm_copy | intros; eapply svm_copy; eassumption]. Qed.

  (** The destructor frees the array and every entry (each once: a second time would be
     undefined behaviour). *)
  Theorem C41_svm_destroy :
    ∀ fuel v (les : list (loc * (K * T))),
 length les < fuel →
    runs (is_svm v les) (sv_destroy fuel v) (λ _ h, nothing h).
  Proof. first [exact svm_destroy | apply svm_destroy | intros; eapply svm_destroy; eassumption]. Qed.

  (** operator[] on any key: the referenced value belongs to the entry with that key. *)
  Theorem C38_svm_index :
    ∀ fuel v (les : list (loc * (K * T))) k,
 key_order keq comp → ascending comp les.*2 →
    sv_room keq ulim k (les.*2, sv_end v) → sv_end v + 2 < fuel →
    runs (is_svm v les) (sv_index keq comp dfltT ulim fuel v k) (λ '(v', q) h, ∃ les' l e,
      q = Some l ∧ (l, e) ∈ les' ∧ keq e.1 k = true ∧ e.2 = default dfltT (value_of keq k les.*2) ∧
      still_there les les' ∧ is_svm v' les' h).
  Proof. first [exact svm_index | apply svm_index | intros; eapply svm_index; eassumption]. Qed.

End sorted_vector_map.

Print Assumptions C38_svm_history.
Print Assumptions C39_svm_history_partial.
Print Assumptions C61_svm_history_partial.
Print Assumptions C38_svm_reaches.
Print Assumptions C39_svm_reaches_partial.
Print Assumptions C41_svm_reaches.
Print Assumptions C38_svm_is_map.
Print Assumptions C38_svm_positions.
Print Assumptions C38_svm_probes.
Print Assumptions C38_svm_probes_empty.
Print Assumptions C39_svm_room_partial.
Print Assumptions C39_svm_capacity_1_refuted.
Print Assumptions C40_svm_count_refuted.
Print Assumptions C61_svm_equal_range_partial.
Print Assumptions C62_svm_find_overflow_refuted.
Print Assumptions C41_svm_insert.
Print Assumptions C38_svm_insert.
Print Assumptions C41_svm_stable.
Print Assumptions C41_svm_copy.
Print Assumptions C41_svm_destroy.
Print Assumptions C38_svm_index.
