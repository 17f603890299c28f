(** bitset: client programs on any number of bitsets of any sizes, and the abstract bitset: a
    list of booleans, bit [i] at index [i]. *)
From Verif Require Export State BitModel.

(** *** Client programs *)
(** Objects are numbered; [o = e] assigns the value of an expression to object [o]. *)
Inductive b_op :=
  | BReset (o : nat) | BResetAt (o p : nat)       (* o.reset(); o.reset(p) *)
  | BSet (o : nat) | BSetAt (o p : nat)           (* o.set(); o.set(p) *)
  | BPut (o p : nat) (v : bool)                   (* o.set(p, v) *)
  | BFlip (o : nat) | BFlipAt (o p : nat)         (* o.flip(); o.flip(p) *)
  | BRefSet (o p : nat) (v : bool)                (* o[p] = v *)
  | BRefFlip (o p : nat)                          (* o[p].flip() *)
  | BAndEq (o q : nat) | BOrEq (o q : nat) | BXorEq (o q : nat)       (* o &= q ... *)
  | BAnd (o q r : nat) | BOr (o q r : nat) | BXor (o q r : nat)       (* o = q & r ... *)
  | BNot (o q : nat)                              (* o = ~q *)
  | BAssign (o q : nat)                           (* o = q, the same size *)
  | BConvert (o q : nat)                          (* o = q, different sizes *)
  | BConstruct (o q : nat)                        (* o = bitset<N>(q), different sizes *)
  | BShl (o q s : nat) | BShr (o q s : nat)       (* o = q << s ... *)
  | BShlEq (o s : nat) | BShrEq (o s : nat)       (* o <<= s ... *)
  | BUlong (o : nat) (u : N)                      (* o = bitset<N>(u), unsigned long *)
  | BUllong (o : nat) (u : N)                     (* the same, unsigned long long *)
  | BString (o : nat) (cs : list nat) (len zero one : nat)   (* o = bitset<N>(cs, len, zero, one) *)
  | BTest (o p : nat)                             (* o.test(p), and o[p] for a const o *)
  | BRefGet (o p : nat) | BRefNot (o p : nat)     (* bool(o[p]), ~o[p] *)
  | BCount (o : nat) | BAll (o : nat) | BAny (o : nat) | BNone (o : nat)
  | BEq (o q : nat) | BNe (o q : nat)
  | BEq0 (o : nat)                                (* o == bitset<0>() *)
  | BToUlong (o : nat) | BToUllong (o : nat) | BSize (o : nat).
Inductive b_out := GDone | GBool (b : bool) | GNat (n : nat) | GNum (u : N).

Section client.
  Context (W LLW ulim : nat) (gnuc long_lt : bool) (fresh : nat → option N).
  (** the template arguments of the objects *)
  Context (sizes : list nat).
  Definition size_of (o : nat) : nat := default 0 (sizes !! o).

  (** o = <temporary>: assignment, then the temporaries die *)
  Definition b_store (fuel o : nat) (e : M pool nat) : M pool b_out :=
    let! k := bit_mark in
    let! t := e in
    b_assign W ulim fuel (size_of o) o t ;!
    bit_cut k ;!
    ret GDone.
  Definition b_done (m : M pool unit) : M pool b_out := m ;! ret GDone.
  Definition b_bool (m : M pool bool) : M pool b_out := let! b := m in ret (GBool b).
  Definition b_step (fuel : nat) (op : b_op) : M pool b_out :=
    match op with
    | BReset o => b_done (b_reset_all W ulim fuel (size_of o) o)
    | BResetAt o p => b_done (b_reset W (size_of o) o p)
    | BSet o => b_done (b_set_all W ulim fuel (size_of o) o)
    | BSetAt o p => b_done (b_set W (size_of o) o p)
    | BPut o p v => b_done (b_put W (size_of o) o p v)
    | BFlip o => b_done (b_flip_all W ulim fuel (size_of o) o)
    | BFlipAt o p => b_done (b_flip W (size_of o) o p)
    | BRefSet o p v => b_done (ref_assign W (b_ref W (size_of o) o p) v)
    | BRefFlip o p => b_done (ref_flip (b_ref W (size_of o) o p))
    | BAndEq o q => b_done (b_and_eq W ulim fuel (size_of o) o q)
    | BOrEq o q => b_done (b_or_eq W ulim fuel (size_of o) o q)
    | BXorEq o q => b_done (b_xor_eq W ulim fuel (size_of o) o q)
    | BAnd o q r => b_store fuel o (b_binop W ulim fresh N.land fuel (size_of o) q r)
    | BOr o q r => b_store fuel o (b_binop W ulim fresh N.lor fuel (size_of o) q r)
    | BXor o q r => b_store fuel o (b_binop W ulim fresh N.lxor fuel (size_of o) q r)
    | BNot o q => b_store fuel o (b_not W ulim fresh fuel (size_of o) q)
    | BAssign o q => b_done (b_assign W ulim fuel (size_of o) o q)
    | BConvert o q => b_done (b_convert W ulim fuel (size_of o) (size_of q) o q)
    | BConstruct o q => b_store fuel o (b_from W ulim fresh fuel (size_of o) (size_of q) q)
    | BShl o q s => b_store fuel o (b_shl W ulim fresh fuel (size_of o) q s)
    | BShr o q s => b_store fuel o (b_shr W ulim fresh fuel (size_of o) q s)
    | BShlEq o s =>
        let! k := bit_mark in b_shl_eq W ulim fresh fuel (size_of o) o s ;! bit_cut k ;! ret GDone
    | BShrEq o s =>
        let! k := bit_mark in b_shr_eq W ulim fresh fuel (size_of o) o s ;! bit_cut k ;! ret GDone
    | BUlong o u => b_store fuel o (b_of_ulong W ulim fresh fuel (size_of o) u)
    | BUllong o u => b_store fuel o (b_of_ullong W ulim long_lt fresh fuel (size_of o) u)
    | BString o cs len zero one =>
        b_store fuel o (b_of_string W fresh fuel (size_of o) cs len zero one)
    | BTest o p => b_bool (b_test W (size_of o) o p)
    | BRefGet o p => b_bool (ref_bool (b_ref W (size_of o) o p))
    | BRefNot o p => b_bool (ref_not (b_ref W (size_of o) o p))
    | BCount o => let! n := b_count W ulim gnuc fuel (size_of o) o in ret (GNat n)
    | BAll o => b_bool (b_all W ulim fuel (size_of o) o)
    | BAny o => b_bool (b_any W ulim fuel (size_of o) o)
    | BNone o => b_bool (b_none W ulim fuel (size_of o) o)
    | BEq o q => b_bool (b_eq W ulim fuel (size_of o) o q)
    | BNe o q => b_bool (b_ne W ulim fuel (size_of o) o q)
    | BEq0 o => b_bool (b_eq0 W ulim fuel (size_of o) o)
    | BToUlong o => let! u := b_to_ulong W (size_of o) o in ret (GNum u)
    | BToUllong o => let! u := b_to_ullong W LLW long_lt (size_of o) o in ret (GNum u)
    | BSize o => ret (GNat (b_size (size_of o)))
    end.
  Fixpoint b_run (fuel : nat) (ops : list b_op) : M pool (list b_out) :=
    match ops with
    | [] => ret []
    | op :: ops => let! r := b_step fuel op in let! rs := b_run fuel ops in ret (r :: rs)
    end.
  (** the default constructors of all objects *)
  Fixpoint b_start (fuel : nat) (ns : list nat) : M pool unit :=
    match ns with
    | [] => ret tt
    | n :: ns => b_new W ulim fresh fuel n ;! b_start fuel ns
    end.
  Definition b_program (fuel : nat) (ops : list b_op) : M pool (list b_out) :=
    b_start fuel sizes ;! b_run fuel ops.
End client.

(** *** The abstract bitset *)
(** the number with the given binary digits, least significant first *)
Fixpoint num_of (bs : list bool) : N :=
  match bs with [] => 0 | b :: bs => (if b then 1 else 0) + 2 * num_of bs end.
(** the [k] least significant digits of [u] *)
Definition digits_of (k : nat) (u : N) : list bool := (λ i, N.testbit u (N.of_nat i)) <$> seq 0 k.
Definition ones_in (bs : list bool) : nat := length (filter (λ b, b = true) bs).
Definition shifted_up (s : nat) (bs : list bool) : list bool := take (length bs) (replicate s false ++ bs).
Definition shifted_down (s : nat) (bs : list bool) : list bool := drop s bs ++ replicate (min s (length bs)) false.
(** the longest prefix of zeros and ones *)
Fixpoint binary_prefix (zero one : nat) (cs : list nat) : list nat :=
  match cs with
  | [] => []
  | c :: cs => if decide (c = zero ∨ c = one) then c :: binary_prefix zero one cs else []
  end.

Section spec.
  Context (W LLW : nat) (long_lt : bool).
  (** An abstract object: its bits, and whether the unused bits of the last word are known to
      be zero (this matters for conversion to a larger bitset only, see C47). *)
  Definition b_state : Type := list (list bool * bool).
  Definition no_pad (n : nat) : bool := bool_decide (n mod W = 0).

  Definition b_upd (st : b_state) (o : nat) (f : list bool → list bool) (g : bool → bool)
      : option (b_state * b_out) :=
    s ← st !! o; Some (<[o := (f s.1, g s.2)]> st, GDone).
  (** the same for a single bit, which must be one of the n bits *)
  Definition b_upd_at (st : b_state) (o p : nat) (f : bool → bool) : option (b_state * b_out) :=
    s ← st !! o; b ← s.1 !! p; Some (<[o := (<[p := f b]> s.1, s.2)]> st, GDone).
  (** o = f(q, r), all of the same size *)
  Definition b_bin (st : b_state) (o q r : nat) (f : bool → bool → bool) (g : bool → bool → bool)
      : option (b_state * b_out) :=
    s ← st !! o; a ← st !! q; b ← st !! r;
    if decide (length a.1 = length s.1 ∧ length b.1 = length s.1) then
      Some (<[o := (zip_with f a.1 b.1, g a.2 b.2)]> st, GDone)
    else None.
  Definition b_un (st : b_state) (o q : nat) (f : list bool → list bool) (g : bool → bool)
      : option (b_state * b_out) :=
    s ← st !! o; a ← st !! q;
    if decide (length a.1 = length s.1) then Some (<[o := (f a.1, g a.2)]> st, GDone) else None.
  (** conversion; to a larger size only if the padding is known to be zero (or there is none) *)
  Definition b_conv (st : b_state) (o q : nat) : option (b_state * b_out) :=
    s ← st !! o; a ← st !! q;
    let n := length s.1 in let m := length a.1 in
    if decide (n ≠ m ∧ (n < m ∨ a.2 = true ∨ m mod W = 0)) then
      Some (<[o := (resize n false a.1, bool_decide (m < n) || no_pad n)]> st, GDone)
    else None.
  Definition b_obs (st : b_state) (o : nat) (f : list bool → b_out) : option (b_state * b_out) :=
    s ← st !! o; Some (st, f s.1).

  Definition b_spec (st : b_state) (op : b_op) : option (b_state * b_out) :=
    match op with
    | BReset o => b_upd st o (λ bs, replicate (length bs) false) (λ _, true)
    | BResetAt o p => b_upd_at st o p (λ _, false)
    | BSet o => s ← st !! o; b_upd st o (λ bs, replicate (length bs) true) (λ _, no_pad (length s.1))
    | BSetAt o p => b_upd_at st o p (λ _, true)
    | BPut o p v =>                        (* C45: set(p, false) does not clear the bit *)
        s ← st !! o; b ← s.1 !! p;
        if decide (v = true ∨ b = false) then b_upd_at st o p (λ _, v) else None
    | BFlip o => s ← st !! o; b_upd st o (fmap negb) (λ _, no_pad (length s.1))
    | BFlipAt o p => b_upd_at st o p negb
    | BRefSet o p v => b_upd_at st o p (λ _, v)
    | BRefFlip o p => b_upd_at st o p negb
    | BAndEq o q => b_bin st o o q andb orb
    | BOrEq o q => b_bin st o o q orb andb
    | BXorEq o q => b_bin st o o q xorb andb
    | BAnd o q r => b_bin st o q r andb orb
    | BOr o q r => b_bin st o q r orb andb
    | BXor o q r => b_bin st o q r xorb andb
    | BNot o q => s ← st !! o; b_un st o q (fmap negb) (λ _, no_pad (length s.1))
    | BAssign o q => b_un st o q id id
    | BConvert o q | BConstruct o q => b_conv st o q
    | BShl o q s => b_un st o q (shifted_up s) (λ _, true)
    | BShr o q s => b_un st o q (shifted_down s) (λ _, true)
    | BShlEq o s => b_upd st o (shifted_up s) (λ _, true)
    | BShrEq o s => b_upd st o (shifted_down s) (λ _, true)
    | BUlong o u =>
        s ← st !! o;
        if decide (s.1 ≠ [] ∧ (u < 2 ^ N.of_nat W)%N) then
          b_upd st o (λ bs, digits_of (length bs) u)
            (λ _, bool_decide (W ≤ length s.1) || bool_decide (u < 2 ^ N.of_nat (length s.1))%N)
        else None
    | BUllong o u =>
        s ← st !! o;
        if decide (s.1 ≠ [] ∧ (u < 2 ^ N.of_nat LLW)%N) then
          b_upd st o (λ bs, digits_of (length bs) u)
            (λ _, no_pad (length s.1) || bool_decide (u < 2 ^ N.of_nat (length s.1))%N)
        else None
    | BString o cs len zero one =>
        (* the characters that are read exist, and the digits fit *)
        s ← st !! o;
        let ds := binary_prefix zero one (take len cs) in
        if decide ((len ≤ length cs ∨ length ds < length cs) ∧ length ds ≤ length s.1) then
          b_upd st o (λ bs, resize (length bs) false (reverse ((λ c, bool_decide (c ≠ zero)) <$> ds))) (λ _, true)
        else None
    | BTest o p => b_obs st o (λ bs, GBool (default false (bs !! p)))
    | BRefGet o p => s ← st !! o; b ← s.1 !! p; Some (st, GBool b)
    | BRefNot o p => s ← st !! o; b ← s.1 !! p; Some (st, GBool (negb b))
    | BCount o => b_obs st o (λ bs, GNat (ones_in bs))
    | BAll o =>                            (* bitset<0>::all() is false: C63 *)
        s ← st !! o;
        if decide (s.1 ≠ []) then Some (st, GBool (bool_decide (Forall (λ b, b = true) s.1))) else None
    | BAny o => b_obs st o (λ bs, GBool (bool_decide (true ∈ bs)))
    | BNone o => b_obs st o (λ bs, GBool (bool_decide (true ∉ bs)))
    | BEq o q =>
        s ← st !! o; a ← st !! q;
        if decide (length a.1 = length s.1) then Some (st, GBool (bool_decide (s.1 = a.1))) else None
    | BNe o q =>
        s ← st !! o; a ← st !! q;
        if decide (length a.1 = length s.1) then Some (st, GBool (bool_decide (s.1 ≠ a.1))) else None
    | BEq0 o => b_obs st o (λ bs, GBool (bool_decide (true ∉ bs)))
    | BToUlong o => b_obs st o (λ bs, GNum (num_of (take W bs)))
    | BToUllong o => b_obs st o (λ bs, GNum (num_of (take LLW bs)))
    | BSize o => b_obs st o (λ bs, GNat (length bs))
    end.
  Fixpoint b_spec_run (st : b_state) (ops : list b_op) : option (b_state * list b_out) :=
    match ops with
    | [] => Some (st, [])
    | op :: ops => '(st, r) ← b_spec st op; '(st, rs) ← b_spec_run st ops; Some (st, r :: rs)
    end.
  Definition b_initial (sizes : list nat) : b_state := (λ n, (replicate n false, true)) <$> sizes.
End spec.

(** *** Memory *)
(** Object [o] of the pool is a bitset with the bits [bs]. Nothing is said about the unused
    bits of its last word. *)
Definition shows (W : nat) (p : pool) (o : nat) (bs : list bool) : Prop :=
  ∃ ws : list N, p !! o = Some (Some <$> ws) ∧ length ws = nwords W (length bs) ∧
    Forall (λ w, (w < 2 ^ N.of_nat W)%N) ws ∧
    ∀ i b, bs !! i = Some b → ∃ w, ws !! (i / W) = Some w ∧ b = N.testbit w (N.of_nat (i mod W)).
(** The unused bits of its last word are zero. *)
Definition clean_pad (W : nat) (p : pool) (o n : nat) : Prop :=
  ∀ ws i w, p !! o = Some ws → n ≤ i → ws !! (i / W) = Some (Some w) → N.testbit w (N.of_nat (i mod W)) = false.

(** [m] changes object [o] of pool [p] to [bs] and nothing else. *)
Definition becomes (W : nat) (m : M pool unit) (p : pool) (o : nat) (bs : list bool) : Prop :=
  gives m p (λ _ p', shows W p' o bs ∧ length p' = length p ∧ ∀ q, q ≠ o → p' !! q = p !! q).
(** [m] returns a new object with the bits [bs]; the objects of [p] stay as they are. *)
Definition makes (W : nat) (m : M pool nat) (p : pool) (bs : list bool) : Prop :=
  gives m p (λ t p', ∃ ts, p' = p ++ ts ∧ length p ≤ t ∧ shows W p' t bs).
(** [m] returns [a] and changes nothing. *)
Definition answers {A} (m : M pool A) (p : pool) (a : A) : Prop := gives m p (λ r p', p' = p ∧ r = a).
(** The words of uninitialised storage that the digits of a string cover completely can be read. *)
Definition string_words_readable (W : nat) (fresh : nat → option N) (op : b_op) : Prop :=
  match op with
  | BString _ cs len zero one =>
      ∀ i, i < length (binary_prefix zero one (take len cs)) / W → ∃ w, fresh i = Some w ∧ (w < 2 ^ N.of_nat W)%N
  | _ => True
  end.
(** the widths of unsigned long and unsigned long long, and __SIZEOF_LONG__ < __SIZEOF_LONG_LONG__ *)
Definition widths (W LLW : nat) (long_lt : bool) : Prop :=
  0 < W ∧ if long_lt then LLW = 2 * W else LLW = W.
