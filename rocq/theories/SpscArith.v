(** * The index arithmetic of spsc_queue *)
From stdpp Require Import gmap list numbers.
From Verif Require Import SpscModel.

Lemma w64_val : w64 = 18446744073709551616%N.
Proof. done. Qed.

(** Remainders of numbers that are less than [M] apart. *)
Lemma mod_add_small M a d :
  (0 < M)%N -> (d <= M)%N ->
  ((a + d) mod M = if decide (a mod M + d < M) then a mod M + d else
                   if decide (d < M) then a mod M + d - M else a mod M)%N.
Proof.
  intros HM Hd. pose proof (N.mod_lt a M ltac:(lia)) as Hr.
  pose proof (N.div_mod a M ltac:(lia)) as Ha.
  set (r := (a mod M)%N) in *. set (q := (a / M)%N) in *.
  destruct (decide _) as [H1|H1]; [|destruct (decide _) as [H2|H2]].
  - symmetry. apply (N.mod_unique _ _ q); lia.
  - symmetry. apply (N.mod_unique _ _ (q + 1)%N); lia.
  - assert (d = M) as -> by lia. symmetry. apply (N.mod_unique _ _ (q + 1)%N); lia.
Qed.

Lemma mod_lt_add M a d :
  (0 < M)%N -> (d < M)%N ->
  ((a mod M + d < M /\ (a + d) mod M = a mod M + d) \/
   (M <= a mod M + d /\ (a + d) mod M = a mod M + d - M))%N.
Proof.
  intros HM Hd. rewrite (mod_add_small M a d) by lia.
  destruct (decide _); [left; lia|]. rewrite decide_True by lia. right. lia.
Qed.

Lemma mod_inj M a b :
  (a <= b < a + M)%N -> (a mod M = b mod M)%N -> a = b.
Proof.
  intros H He. replace b with (a + (b - a))%N in He |- * by lia.
  destruct (mod_lt_add M a (b - a)) as [[? H1]|[? H1]]; [lia|lia|lia|].
  pose proof (N.mod_lt a M). lia.
Qed.

Lemma add64_small x y : (x + y < w64)%N -> add64 x y = (x + y)%N.
Proof. intros H. unfold add64. by apply N.mod_small. Qed.

Lemma sub64_small x y : (y <= x < w64)%N -> sub64 x y = (x - y)%N.
Proof.
  intros H. unfold sub64. symmetry. apply (N.mod_unique _ _ 1%N); lia.
Qed.

Lemma sub64_neg x y : (x < y <= w64)%N -> sub64 x y = (w64 + x - y)%N.
Proof. intros H. unfold sub64. rewrite N.mod_small by lia. lia. Qed.

Lemma add64_big x y : (w64 <= x + y < 2 * w64)%N -> add64 x y = (x + y - w64)%N.
Proof. intros H. unfold add64. symmetry. apply (N.mod_unique _ _ 1%N); lia. Qed.

Section arith.
  Context (M : N) (HM : (0 < M <= 2 ^ 63)%N).

  Lemma M_lt : (M < w64)%N.
  Proof using HM. rewrite w64_val. change (2 ^ 63)%N with 9223372036854775808%N in HM. lia. Qed.


  Lemma next_index_ok i : (i < M)%N -> next_index i M = Some ((i + 1) mod M)%N.
  Proof using HM.
    intros Hi. pose proof M_lt. unfold next_index. cbn [next_loop].
    rewrite add64_small by lia. destruct (N.leb_spec M (i + 1)).
    - rewrite sub64_small by lia. assert (i + 1 = M)%N as -> by lia.
      rewrite N.sub_diag, N.mod_same by lia. by destruct (N.leb_spec M 0); [lia|].
    - by rewrite N.mod_small.
  Qed.

  (** Any number of iterations is enough, from one on. *)
  Lemma next_loop_ok i fuel : (i < M)%N -> next_loop (S fuel) (add64 i 1) M = Some ((i + 1) mod M)%N.
  Proof using HM.
    intros Hi. pose proof M_lt. cbn [next_loop].
    rewrite add64_small by lia. destruct (N.leb_spec M (i + 1)).
    - rewrite sub64_small by lia. assert (i + 1 = M)%N as -> by lia.
      rewrite N.sub_diag, N.mod_same by lia. destruct fuel; simpl; by destruct (N.leb_spec M 0); [lia|].
    - by rewrite N.mod_small.
  Qed.

  Lemma read_available_ok np nc :
    (nc <= np < nc + M)%N -> read_available (np mod M) (nc mod M) M = (np - nc)%N.
  Proof using HM.
    intros H. pose proof M_lt. unfold read_available.
    assert (exists d, np = nc + d /\ d < M)%N as (d & -> & Hd) by (exists (np - nc)%N; lia).
    pose proof (N.mod_lt nc M ltac:(lia)).
    change (2 ^ 63)%N with 9223372036854775808%N in HM. pose proof w64_val.
    destruct (mod_lt_add M nc d) as [[Hc ->]|[Hc ->]]; [lia|lia|..].
    - destruct (N.leb_spec (nc mod M) (nc mod M + d)); [|lia]. rewrite sub64_small by lia. lia.
    - destruct (N.leb_spec (nc mod M) (nc mod M + d - M)); [lia|].
      rewrite add64_small by lia. rewrite sub64_small by lia. lia.
  Qed.

  Lemma write_available_ok np nc :
    (nc <= np < nc + M)%N -> write_available (np mod M) (nc mod M) M = (M - 1 - (np - nc))%N.
  Proof using HM.
    intros H. pose proof M_lt. unfold write_available.
    assert (exists d, np = nc + d /\ d < M)%N as (d & -> & Hd) by (exists (np - nc)%N; lia).
    pose proof (N.mod_lt nc M ltac:(lia)).
    change (2 ^ 63)%N with 9223372036854775808%N in HM. pose proof w64_val.
    destruct (mod_lt_add M nc d) as [[Hc ->]|[Hc ->]]; [lia|lia|..].
    - destruct (N.leb_spec (nc mod M) (nc mod M + d)); [|lia].
      destruct (decide (d = 0%N)) as [->|Hne].
      + rewrite N.add_0_r, (sub64_small (nc mod M)) by lia. rewrite N.sub_diag, sub64_neg by lia.
        rewrite add64_big by lia. lia.
      + rewrite (sub64_neg (nc mod M)) by lia. rewrite sub64_small by lia. rewrite add64_big by lia. lia.
    - destruct (N.leb_spec (nc mod M) (nc mod M + d - M)); [lia|].
      rewrite (sub64_small (nc mod M)) by lia. rewrite sub64_small by lia. lia.
  Qed.

  Lemma sections_ok a n :
    (n < M)%N ->
    sections (a mod M) n M =
      if decide (M < a mod M + n)%N then (M, Some (a mod M + n - M), (a + n) mod M)%N
      else (a mod M + n, None, (a + n) mod M)%N.
  Proof using HM.
    intros Hn. pose proof M_lt. pose proof (N.mod_lt a M ltac:(lia)).
    change (2 ^ 63)%N with 9223372036854775808%N in HM. pose proof w64_val. unfold sections.
    rewrite (add64_small (a mod M)) by lia. destruct (N.ltb_spec M (a mod M + n)).
    - rewrite decide_True by lia. rewrite (sub64_small M) by lia. rewrite !sub64_small by lia.
      destruct (mod_lt_add M a n) as [[? ->]|[? ->]]; [lia..|]. assert (n - (M - a mod M) = a mod M + n - M)%N as -> by lia. done.
    - rewrite decide_False by lia. f_equal.
      destruct (mod_lt_add M a n) as [[? ->]|[? ->]]; [lia..| |].
      + destruct (N.eqb_spec (a mod M + n) M); [lia|done].
      + destruct (N.eqb_spec (a mod M + n) M); lia.
  Qed.
End arith.
