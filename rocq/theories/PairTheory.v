(** The loop that pairs each irrep with its complex conjugate (irreps.py:104-119, 210-225). *)
From mathcomp Require Import all_ssreflect all_algebra.
From Verif Require Import RepSpec RepModel SmallModel.
Import Order.TTheory GRing.Theory Num.Theory.
Set Implicit Arguments.
Unset Strict Implicit.
Unset Printing Implicit Defensive.
Local Open Scope ring_scope.

(** The indices that occur in a list of pairs; (i, i) stands for the single index i. *)
Definition members (ps : seq (nat * nat)) : seq nat :=
  flatten [seq if p.1 == p.2 then [:: p.1] else [:: p.1; p.2] | p <- ps].

Section Pairs.
Variables (C : numClosedFieldType) (E : numpy C) (chars : seq (seq C)).
Local Notation N := (size chars).
Definition conjugate_test (i j : nat) : bool :=
  is_equivalent_irrep (np_around E) [seq x^* | x <- nth [::] chars i] (nth [::] chars j).
Local Notation q := conjugate_test.

Lemma nth_set (v : seq bool) i j : nth true (set_nth true v i true) j = (j == i) || nth true v j.
Proof. by rewrite nth_set_nth /=; case: eqP. Qed.

Lemma members_cons p ps : members (p :: ps) = (if p.1 == p.2 then [:: p.1] else [:: p.1; p.2]) ++ members ps.
Proof. by []. Qed.

(** Every index not yet visited occurs exactly once. *)
Lemma pair_loop_members m k v : (k + m = N)%N -> size v = N -> (forall i, (i < k)%N -> nth true v i) ->
  let ps := pair_loop E chars (iota k m) v in
  [/\ uniq (members ps), (forall i, (i \in members ps) = (i < N)%N && ~~ nth true v i) &
      forall p, p \in ps -> (p.1 <= p.2)%N].
Proof.
elim: m k v => [|m IH] k v /=.
  rewrite addn0 => kN sv vis; split=> // i; rewrite in_nil.
  by case: ltnP => //= hi; rewrite vis // kN.
move=> kN sv vis; have kn : (k < N)%N by rewrite -kN addnS ltnS leq_addr.
have kN' : (k.+1 + m = N)%N by rewrite addSnnS.
have [vk|nk] := boolP (nth true v k).
  have [|h1 h2 h3] := IH k.+1 v kN' sv; last by split.
  by move=> i; rewrite ltnS leq_eqVlt => /orP [/eqP ->|/vis].
set v1 := set_nth true v k true.
have sv1 : size v1 = N by rewrite size_set_nth sv; apply/maxn_idPr.
have vis1 i : (i < k.+1)%N -> nth true v1 i.
  by rewrite ltnS leq_eqVlt nth_set => /orP [->//|/vis ->]; rewrite orbT.
set P := (fun _ => _ && _); set j := find P _.
case: ltnP => jN; last first.
  have [h1 h2 h3] := IH k.+1 v1 kN' sv1 vis1.
  split.
  - by rewrite members_cons /= eqxx /= h1 h2 nth_set eqxx /= andbF.
  - move=> i; rewrite members_cons /= eqxx in_cons h2 nth_set.
    by case: eqP => [->|_] //=; rewrite kn nk.
  - by move=> p; rewrite in_cons => /orP [/eqP ->|/h3].
have Pj : P j.
  have : has P (iota 0 N) by rewrite has_find size_iota.
  by move/(nth_find 0%N); rewrite nth_iota.
have nj : ~~ nth true v1 j by case/andP: Pj.
have jk : (k < j)%N by rewrite ltnNge; apply: contra nj => h; exact: vis1.
have kj : (k == j) = false by rewrite ltn_eqF.
set v2 := set_nth true v1 j true.
have sv2 : size v2 = N by rewrite size_set_nth sv1; apply/maxn_idPr.
have vis2 i : (i < k.+1)%N -> nth true v2 i by rewrite nth_set => /vis1 ->; rewrite orbT.
have [h1 h2 h3] := IH k.+1 v2 kN' sv2 vis2.
split.
- rewrite members_cons /= kj /= in_cons kj /= h1 !h2 !nth_set !eqxx /= ?orbT !andbF //.
- move=> i; rewrite members_cons /= kj !in_cons h2 !nth_set.
  case: (i =P k) => [->|ik] /=; first by rewrite kn nk.
  case: (i =P j) => [->|ij] //=.
  by move: nj; rewrite nth_set negb_or => /andP [_ ->]; rewrite jN.
- by move=> p; rewrite in_cons => /orP [/eqP ->|/h3] //=; exact: ltnW.
Qed.

(** If conjugation is an involution on the list, the pairs are the conjugate ones. *)
Section Involution.
Hypothesis q_sym : forall i j, (i < N)%N -> (j < N)%N -> q i j -> q j i.
Hypothesis q_fun : forall i j l, (i < N)%N -> (j < N)%N -> (l < N)%N -> q i j -> q i l -> j = l.

Lemma pair_loop_conjugate m k v : (k + m = N)%N -> size v = N -> (forall i, (i < k)%N -> nth true v i) ->
  (forall i j, (i < N)%N -> (j < N)%N -> q i j -> nth true v i = nth true v j) ->
  forall i j, (i, j) \in pair_loop E chars (iota k m) v ->
    [/\ (i < N)%N, (j < N)%N, i = j -> forall l, (l < N)%N -> l <> i -> ~~ q i l & i <> j -> q i j].
Proof.
elim: m k v => [|m IH] k v //=.
move=> kN sv vis clo; have kn : (k < N)%N by rewrite -kN addnS ltnS leq_addr.
have kN' : (k.+1 + m = N)%N by rewrite addSnnS.
have [vk|nk] := boolP (nth true v k).
  apply: IH => // i; by rewrite ltnS leq_eqVlt => /orP [/eqP ->|/vis].
set v1 := set_nth true v k true.
have sv1 : size v1 = N by rewrite size_set_nth sv; apply/maxn_idPr.
have vis1 i : (i < k.+1)%N -> nth true v1 i.
  by rewrite ltnS leq_eqVlt nth_set => /orP [->//|/vis ->]; rewrite orbT.
set P := (fun _ => _ && _); set j := find P _ => a b.
case: ltnP => jN; last first.
  have alone l : (l < N)%N -> l <> k -> ~~ q k l.
    move=> lN lk; apply/negP => hq.
    have : ~~ has P (iota 0 N) by rewrite has_find size_iota -leqNgt.
    move/hasPn/(_ l); rewrite mem_iota => /(_ lN); rewrite /P -/(q k l) hq andbT negbK nth_set.
    by rewrite -(clo _ _ kn lN hq) (negbTE nk) orbF => /eqP.
  rewrite in_cons => /orP [/eqP [-> ->]|]; first by split.
  apply: (IH k.+1 v1 kN' sv1 vis1) => i l iN lN hq; rewrite !nth_set (clo _ _ iN lN hq).
  case: (i =P k) => [ik|ik]; case: (l =P k) => [lk|lk] //=.
    by move: (alone l lN lk); rewrite -{1}ik hq.
  by move: (alone i iN ik); rewrite -{1}lk q_sym.
have Pj : P j.
  have : has P (iota 0 N) by rewrite has_find size_iota.
  by move/(nth_find 0%N); rewrite nth_iota.
have /andP [nj hq] := Pj; rewrite -/(q k j) in hq.
have jk : (k < j)%N by rewrite ltnNge; apply: contra nj => h; exact: vis1.
set v2 := set_nth true v1 j true.
have sv2 : size v2 = N by rewrite size_set_nth sv1; apply/maxn_idPr.
have vis2 i : (i < k.+1)%N -> nth true v2 i by rewrite nth_set => /vis1 ->; rewrite orbT.
rewrite in_cons => /orP [/eqP [-> ->]|].
  by split=> // kj; move: jk; rewrite kj ltnn.
apply: (IH k.+1 v2 kN' sv2 vis2) => i l iN lN hil; rewrite !nth_set (clo _ _ iN lN hil).
case: (i =P k) => [ik|ik].
  by rewrite (q_fun kn jN lN hq) ?eqxx ?orbT // -ik.
case: (i =P j) => [ij|ij].
  by rewrite (q_fun jN kn lN (q_sym kn jN hq)) ?eqxx ?orbT // -ij.
case: (l =P k) => [lk|lk].
  by case: ij; apply: (q_fun kn iN jN _ hq); rewrite -lk q_sym.
case: (l =P j) => [lj|lj] //.
case: ik; apply: (q_fun jN iN kn _ (q_sym kn jN hq)); rewrite -lj q_sym //.
Qed.

Lemma pairs_conjugate i j : (i < N)%N -> (j < N)%N -> (i <= j)%N ->
  ((i, j) \in pair_loop E chars (iota 0 N) (nseq N false)) =
  if i == j then [forall l : 'I_N, (val l != i) ==> ~~ q i l] else q i j.
Proof.
move=> iN jN le.
have sv : size (nseq N false) = N by rewrite size_nseq.
have vis a : (a < 0)%N -> nth true (nseq N false) a by [].
have [h1 h2 h3] := pair_loop_members (erefl : (0 + N = N)%N) sv vis.
have clo a b : (a < N)%N -> (b < N)%N -> q a b -> nth true (nseq N false) a = nth true (nseq N false) b.
  by move=> aN bN _; rewrite !nth_nseq aN bN.
have pc := pair_loop_conjugate (erefl : (0 + N = N)%N) sv vis clo.
have [[a b] /= ab hi] : exists2 p, p \in pair_loop E chars (iota 0 N) (nseq N false) & (i == p.1) || (i == p.2).
  have : i \in members (pair_loop E chars (iota 0 N) (nseq N false)) by rewrite h2 nth_nseq iN.
  case/flattenP=> s /mapP [p hp ->] => hi; exists p => //.
  by move: hi; case: eqP => _; rewrite !inE // => ->.
have [aN bN s1 s2] := pc _ _ ab; have lab := h3 _ ab; rewrite /= in lab.
apply/idP/idP.
  move/pc => [_ _ p1 p2]; case: eqP => [ij|/p2//].
  by apply/forallP=> l; apply/implyP=> /eqP li; apply: p1.
case: (i =P j) => [<-|ij].
  move/forallP=> al.
  have [ab'|ab'] := a =P b; first by move: hi ab; rewrite -ab' orbb => /eqP ->.
  have := s2 ab' => hq.
  case/orP: hi => /eqP hi.
    by have := al (Ordinal bN); rewrite /= hi hq implybF negbK => /eqP e; case: ab'.
  by have := al (Ordinal aN); rewrite /= hi q_sym // implybF negbK => /eqP e; case: ab'.
move=> hij; have lt : (i < j)%N by rewrite ltn_neqAle le andbT; apply/eqP.
have [ab'|ab'] := a =P b.
  move: hi; rewrite -ab' orbb => /eqP ia.
  by have := s1 ab' j jN; rewrite -ia hij => /(_ (nesym ij)).
have hq := s2 ab'; case/orP: hi => /eqP hi.
  by rewrite hi in hij *; rewrite (q_fun aN jN bN hij hq).
have := q_fun iN jN aN hij; rewrite hi q_sym // => /(_ erefl) ja.
by move: lab; rewrite -hi -ja leqNgt lt.
Qed.
End Involution.
End Pairs.
