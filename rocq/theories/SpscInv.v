(** * The invariant of the spsc_queue machine *)
From stdpp Require Import gmap list numbers.
From Verif Require Import Lin SpscModel SpscSpec SpscArith.

Set Default Proof Using "Type".

(** Elements are numbered in the order of their publication.  [g_np] elements
    have been published (the write index is [g_np] modulo the buffer's size),
    [g_nc] have been given up by the consumer; [g_cw], [g_cr] are these numbers
    for all stores to the indices.  [g_up] are the elements constructed but not
    published; [g_ac] elements are consumed but not given up. *)
Record xghost (V : Type) := XG {
  g_np : N; g_nc : N;
  g_cw : list N; g_cr : list N;
  g_q : list V; g_up : list V; g_ac : nat;
  g_kc : N; g_kp : N;
  g_l : list (levent (xop V) (xret V));
  g_ph : gmap nat (phase (xop V) (xret V));
}.
Arguments XG {V} _ _ _ _ _ _ _ _ _ _ _.
Arguments g_np {V} _.
Arguments g_nc {V} _.
Arguments g_cw {V} _.
Arguments g_cr {V} _.
Arguments g_q {V} _.
Arguments g_up {V} _.
Arguments g_ac {V} _.
Arguments g_kc {V} _.
Arguments g_kp {V} _.
Arguments g_l {V} _.
Arguments g_ph {V} _.

Definition mono (l : list N) : Prop :=
  forall i j x y, i <= j -> l !! i = Some x -> l !! j = Some y -> (x <= y)%N.
Definition lastis (l : list N) (x : N) : Prop := l !! pred (length l) = Some x.

Section inv.
  Context {V : Type} (c : xcfg).
  Notation M := (x_max c).
  Notation sc := (x_sc c).
  Notation spec := (xspec (M - 1) sc).
  Notation ghost := (xghost V).

  (** The messages and the threads' views of them. *)
  Record WI (ws rs : list msg) (tp tc : thread V) (g : ghost) : Prop := {
    wi_lenw : length (g_cw g) = length ws;
    wi_lenr : length (g_cr g) = length rs;
    wi_valw : forall k m n, ws !! k = Some m -> g_cw g !! k = Some n -> m_val m = (n mod M)%N;
    wi_valr : forall k m n, rs !! k = Some m -> g_cr g !! k = Some n -> m_val m = (n mod M)%N;
    wi_relr : forall k m, rs !! k = Some m -> m_rel m = true;
    wi_monow : mono (g_cw g);
    wi_monor : mono (g_cr g);
    wi_lastw : lastis (g_cw g) (g_np g);
    wi_lastr : lastis (g_cr g) (g_nc g);
    wi_msgw : forall k m, ws !! k = Some m -> m_sw m < length ws /\ m_sr m < length rs;
    wi_msgr : forall k m, rs !! k = Some m -> m_sw m < length ws /\ m_sr m < length rs;
    wi_ownp : S (t_sw tp) = length ws;
    wi_ownc : S (t_sr tc) = length rs;
    wi_seenp : exists n, g_cr g !! t_sr tp = Some n /\
      (g_np g + len (g_up g) + 1 <= n + M)%N /\ (g_np g + g_kp g + 1 <= n + M)%N;
    wi_seenc : exists n, g_cw g !! t_sw tc = Some n /\
      (g_nc g + N.of_nat (g_ac g) <= n)%N /\ (g_nc g + g_kc g <= n)%N;
    wi_size : g_np g = (g_nc g + len (g_q g))%N;
    wi_ac : g_ac g <= length (g_q g);
  }.

  (** The slots. *)
  Record SI (ws rs : list msg) (sl : gmap N (slot V)) (tp tc : thread V) (g : ghost) : Prop := {
    si_vals : forall j x, (x_triv c = false -> g_ac g <= j) -> (g_q g ++ g_up g) !! j = Some x ->
      s_val (slot_at sl ((g_nc g + N.of_nat j) mod M)) = Some x;
    si_none : x_triv c = false -> forall j, length (g_q g ++ g_up g) <= j ->
      (N.of_nat j < N.of_nat (g_ac g) + M)%N ->
      s_val (slot_at sl ((g_nc g + N.of_nat j) mod M)) = None;
    si_clkp : forall i, (s_wp (slot_at sl i) <= t_p tp)%N;
    si_clkc : forall i, (s_wc (slot_at sl i) <= t_c tc)%N /\ (s_rc (slot_at sl i) <= t_c tc)%N;
    si_rp : forall i, s_rp (slot_at sl i) = 0%N;
    si_data : forall k m n, ws !! k = Some m -> g_cw g !! k = Some n -> (g_nc g < n)%N ->
      m_rel m = true /\
      forall j, (g_nc g <= j < n)%N -> (s_wp (slot_at sl (j mod M)) <= m_p m)%N;
    si_free : forall k m n, rs !! k = Some m -> g_cr g !! k = Some n ->
      forall j, (g_np g <= j < n + M)%N ->
        (s_wc (slot_at sl (j mod M)) <= m_c m)%N /\ (s_rc (slot_at sl (j mod M)) <= m_c m)%N;
  }.

  (** The producer has acquired the consumer's release of [n] more places. *)
  Definition spc (rs : list msg) (tp : thread V) (g : ghost) (n : N) : Prop :=
    exists k m x, rs !! k = Some m /\ g_cr g !! k = Some x /\ (m_c m <= t_c tp)%N /\ k <= t_sr tp /\
      (g_np g + n + 1 <= x + M)%N.
  (** The consumer has acquired the producer's publication of [n] more elements. *)
  Definition wknow (ws : list msg) (tc : thread V) (g : ghost) (n : N) : Prop :=
    n = 0%N \/
    exists k m x, ws !! k = Some m /\ g_cw g !! k = Some x /\ (m_p m <= t_p tc)%N /\ k <= t_sw tc /\
      (g_nc g + n <= x)%N.

  Record GI (ws rs : list msg) (sl : gmap N (slot V)) (tp tc : thread V) (g : ghost) : Prop := {
    gi_wi : WI ws rs tp tc g;
    gi_si : SI ws rs sl tp tc g;
    gi_know : wknow ws tc g (g_kc g);
    gi_run : lruns spec ∅ xs_init (g_l g) (g_ph g) (AQ (g_q g) (g_kc g) (g_kp g));
  }.

  (** ** The producer *)
  Definition npos (g : ghost) (second : bool) (vs rest : list V) (base i k : N) : Prop :=
    let w := (g_np g mod M)%N in
    let d := len (g_up g) in
    match second with
    | false => base = w /\ i = (w + d)%N /\ (rest = [] -> w + k <= M)%N /\ (rest <> [] -> w + d + len vs = M)%N
    | true => rest = [] /\ base = 0%N /\ (i + M = w + d)%N
    end.

  Definition nbatch (g : ghost) (us : list V) (k : N) : Prop :=
    (k <= len us)%N /\ (g_kp g `min` len us <= k)%N /\ (k = 0%N -> us = []).

  Definition pinv (pc : option (xpc V)) (rs : list msg) (tp : thread V) (g : ghost) : Prop :=
    let pend o := g_ph g !! 0 = Some (Pending o) in
    let w0 := (g_np g mod M)%N in
    match pc with
    | None => g_ph g !! 0 = None /\ g_up g = []
    | Some (P1 v) => pend (OPush v) /\ g_up g = []
    | Some (P2 v w) => pend (OPush v) /\ g_up g = [] /\ w = w0
    | Some (P3 v w nx) => pend (OPush v) /\ g_up g = [] /\ w = w0 /\ nx = ((g_np g + 1) mod M)%N /\ spc rs tp g 1
    | Some (P4 nx) => exists v, pend (OPush v) /\ g_up g = [v] /\ nx = ((g_np g + 1) mod M)%N
    | Some (N1 us) => pend (OPushN us) /\ g_up g = []
    | Some (N2 us w) => pend (OPushN us) /\ g_up g = [] /\ w = w0
    | Some (N3 second vs rest base i k nw) => exists us, pend (OPushN us) /\ nbatch g us k /\
        take (N.to_nat k) us = g_up g ++ vs ++ rest /\ nw = ((g_np g + k) mod M)%N /\ spc rs tp g k /\
        npos g second vs rest base i k
    | Some (NU base i) => exists us, pend (OPushN us) /\ x_triv c = false /\ base = w0 /\
        i = (base + len (g_up g))%N /\ (i <= M)%N /\ spc rs tp g (len (g_up g))
    | Some (N4 k nw) => exists us, pend (OPushN us) /\ nbatch g us k /\
        take (N.to_nat k) us = g_up g /\ nw = ((g_np g + k) mod M)%N
    | Some A1 => pend OWAvail /\ g_up g = []
    | Some (A2 w) => pend OWAvail /\ g_up g = [] /\ w = w0
    | Some (E1 b) => pend (OEmpty RP b) /\ g_up g = []
    | Some (E2 false w) => pend (OEmpty RP false) /\ g_up g = [] /\ w = w0
    | Some (E2 true r) =>
        g_ph g !! 0 = Some (Done (OEmpty RP true) (RBool (bool_decide (w0 = r)))) /\ g_up g = []
    | Some (XRet r) => (exists o, g_ph g !! 0 = Some (Done o r)) /\ g_up g = []
    | _ => False
    end.

  (** ** The consumer *)
  Definition bop (kd : bkind) : xop V :=
    match kd with
    | KPop n => OPopN n | KPopAll => OPopAll | KAll => OAll | KReset => OReset | KDestroy => ODestroy
    end.
  Definition bcount (g : ghost) (kd : bkind) (n : N) : Prop :=
    match kd with
    | KPop m => (n <= m /\ g_kc g `min` m <= n /\ (n = 0 -> m = 0))%N
    | KPopAll | KAll => (g_kc g <= n /\ n <> 0)%N
    | KReset | KDestroy => n = len (g_q g)
    end.

  (** Positions: [a] elements of [n] are done. *)
  Definition bpos (g : ghost) (a n i e : N) (e2 : option N) : Prop :=
    let r := (g_nc g mod M)%N in
    match e2 with
    | Some e' => i = (r + a)%N /\ e = M /\ (r + n = M + e')%N /\ (0 < e')%N /\ (i <= e)%N
    | None => (r + n <= M /\ i = r + a /\ e = r + n /\ a <= n)%N \/
              (M < r + n /\ i + M = r + a /\ e + M = r + n /\ a <= n)%N
    end.

  Definition binv (kd : bkind) (i e : N) (e2 : option N) (nr : N) (acc : list V)
      (ws : list msg) (tc : thread V) (g : ghost) : Prop :=
    length acc = g_ac g /\ acc = take (g_ac g) (g_q g) /\
    exists n, (n <= len (g_q g))%N /\ bcount g kd n /\ wknow ws tc g n /\
      nr = ((g_nc g + n) mod M)%N /\ bpos g (len acc) n i e e2.

  Definition cinv (pc : option (xpc V)) (ws : list msg) (tc : thread V) (known : N) (excl : option bool)
      (g : ghost) : Prop :=
    let pend o := g_ph g !! 1 = Some (Pending o) /\ g_kc g = known /\ excl = exclusive o in
    let fin o r := g_ph g !! 1 = Some (Done o r) /\ g_kc g = known_after known r /\ excl = exclusive o in
    let r0 := (g_nc g mod M)%N in
    match pc with
    | None => g_ph g !! 1 = None /\ g_kc g = known /\ excl = None /\ g_ac g = 0
    | Some C1 => pend OPop /\ g_ac g = 0
    | Some (C2 w) => g_ac g = 0 /\
        ((w = r0 /\ fin OPop (RPop None)) \/ (w <> r0 /\ pend OPop /\ wknow ws tc g 1 /\ (0 < len (g_q g))%N))
    | Some (C3 r) => g_ac g = 0 /\ pend OPop /\ r = r0 /\ wknow ws tc g 1 /\ (0 < len (g_q g))%N
    | Some (C4 r x) => g_ac g = 0 /\ pend OPop /\ r = r0 /\ wknow ws tc g 1 /\ g_q g !! 0 = Some x
    | Some (C5 nr x) => g_ac g = 1 /\ pend OPop /\ nr = ((g_nc g + 1) mod M)%N /\ g_q g !! 0 = Some x
    | Some (B1 kd) => g_ac g = 0 /\ pend (bop kd)
    | Some (B2 kd w) => g_ac g = 0 /\
        exists n, (n < M)%N /\ w = ((g_nc g + n) mod M)%N /\ wknow ws tc g n /\ (n <= len (g_q g))%N /\
          (b_user kd = false -> n = len (g_q g)) /\
          ((n = 0%N /\ fin (bop kd) (b_result kd [])) \/ (n <> 0%N /\ (g_kc g <= n)%N /\ pend (bop kd)))
    | Some (B3 kd i e e2 nr acc) => pend (bop kd) /\ binv kd i e e2 nr acc ws tc g
    | Some (B4 kd i e e2 nr acc x) => pend (bop kd) /\ binv kd i e e2 nr acc ws tc g /\ i <> e /\
        g_q g !! g_ac g = Some x
    | Some (B5 kd nr acc) => pend (bop kd) /\ length acc = g_ac g /\ acc = take (g_ac g) (g_q g) /\
        bcount g kd (len acc) /\ nr = ((g_nc g + len acc) mod M)%N
    | Some F1 => g_ac g = 0 /\ pend OFront /\ (0 < g_kc g)%N
    | Some (F2 r) => g_ac g = 0 /\ pend OFront /\ (0 < g_kc g)%N /\ r = r0
    | Some V1 => g_ac g = 0 /\ pend ORAvail
    | Some (V2 w) => g_ac g = 0 /\ exists n, (n < M)%N /\ w = ((g_nc g + n) mod M)%N /\ fin ORAvail (RNum n)
    | Some (E1 b) => g_ac g = 0 /\ pend (OEmpty RC b)
    | Some (E2 false w) => g_ac g = 0 /\ fin (OEmpty RC false) (RBool (bool_decide (w = r0)))
    | Some (E2 true r) => g_ac g = 0 /\ pend (OEmpty RC true) /\ r = r0
    | Some S1 => g_ac g = 0 /\ pend OReset /\ x_triv c = true
    | Some (XRet r) => g_ac g = 0 /\ (exists o, fin o r) /\ (excl <> None -> g_q g = [])
    | _ => False
    end.

  Definition Inv (s : xstate V) (g : ghost) : Prop :=
    GI (x_w s) (x_r s) (x_slots s) (x_prod s) (x_cons s) g /\
    (if x_dead s then g_q g = [] /\ g_up g = [] /\ g_ac g = 0
     else pinv (t_pc (x_prod s)) (x_r s) (x_prod s) g /\
          cinv (t_pc (x_cons s)) (x_w s) (x_cons s) (x_known s) (x_excl s) g /\
          (x_excl s <> None -> t_pc (x_prod s) = None /\ S (t_sw (x_cons s)) = length (x_w s))).
End inv.
