(** Lists of dimensions determined by their length and their sum of squares. *)
From Coq Require List.
From mathcomp Require Import all_ssreflect.
From mathcomp Require Import zify.
Set Implicit Arguments.
Unset Strict Implicit.
Unset Printing Implicit Defensive.

Definition sumsq (ds : seq nat) : nat := \sum_(d <- ds) d ^ 2.
Definition tuple_of (ds : seq nat) : nat * nat * nat * nat :=
  (count_mem 1 ds, count_mem 2 ds, count_mem 3 ds, count_mem 4 ds).
Definition allowed (al : seq nat) (a b c d : nat) : bool :=
  [&& (1 \in al) || (a == 0), (2 \in al) || (b == 0), (3 \in al) || (c == 0) & (4 \in al) || (d == 0)].
Definition unique_tuple (al : seq nat) (N n : nat) (t : nat * nat * nat * nat) : bool :=
  all (fun d => all (fun c => all (fun b => let a := N - (b + c + d) in
    if (a + 4 * b + 9 * c + 16 * d == n) && allowed al a b c d then (a, b, c, d) == t else true)
    (iota 0 (N - (c + d)).+1)) (iota 0 (N - d).+1)) (iota 0 N.+1).
Lemma counts4 (xs : seq nat) : {subset xs <= [:: 1; 2; 3; 4]} ->
  size xs = count_mem 1 xs + count_mem 2 xs + count_mem 3 xs + count_mem 4 xs /\
  sumsq xs = count_mem 1 xs + 4 * count_mem 2 xs + 9 * count_mem 3 xs + 16 * count_mem 4 xs.
Proof.
elim: xs => [|x xs IH] h; first by rewrite /sumsq big_nil.
have [|e1 e2] := IH; first by move=> y hy; apply: h; rewrite inE hy orbT.
have hx : x \in [:: 1; 2; 3; 4] by apply: h; rewrite inE eqxx.
have -> : sumsq (x :: xs) = x ^ 2 + sumsq xs by rewrite /sumsq big_cons.
rewrite e2 [size _]/= e1 /=; move: hx; rewrite !inE => /orP [|/orP [|/orP []]] /eqP -> /=; split; lia.
Qed.
Lemma unique_tuple_sound al N n (xs ds : seq nat) : {subset al <= [:: 1; 2; 3; 4]} -> {subset xs <= al} ->
  {subset ds <= [:: 1; 2; 3; 4]} -> size xs = N -> sumsq xs = n -> unique_tuple al N n (tuple_of ds) -> perm_eq xs ds.
Proof.
move=> hal hxs hds sN sn u.
have sub : {subset xs <= [:: 1; 2; 3; 4]} by move=> x /hxs /hal.
have [e1 e2] := counts4 sub; rewrite sN sn in e1 e2.
have z k : (k \in al) || (count_mem k xs == 0).
  by case: (boolP (k \in al)) => //= nk; apply/eqP/count_memPn; apply: contra nk => /hxs.
have : (count_mem 1 xs, count_mem 2 xs, count_mem 3 xs, count_mem 4 xs) == tuple_of ds.
  have [z1 z2 z3 z4] := And4 (z 1) (z 2) (z 3) (z 4); clear z.
  move: z1 z2 z3 z4 e1 e2; move: (count_mem 1 xs) (count_mem 2 xs) (count_mem 3 xs) (count_mem 4 xs) => a b c d z1 z2 z3 z4 e1 e2.
  have h4 : d \in iota 0 N.+1 by rewrite mem_iota; lia.
  have h3 : c \in iota 0 (N - d).+1 by rewrite mem_iota; lia.
  have h2 : b \in iota 0 (N - (c + d)).+1 by rewrite mem_iota; lia.
  move/allP/(_ d h4)/allP/(_ c h3)/allP/(_ b h2): u; cbv zeta.
  have -> : N - (b + c + d) = a by lia.
  by rewrite e2 eqxx /allowed z1 z2 z3 z4.
rewrite /tuple_of => /eqP [c1 c2 c3 c4]; rewrite /perm_eq; apply/allP => x; rewrite mem_cat => hx.
have : x \in [:: 1; 2; 3; 4] by case/orP: hx; [exact: sub|exact: hds].
by rewrite !inE => /orP [|/orP [|/orP []]] /eqP ->; apply/eqP.
Qed.
