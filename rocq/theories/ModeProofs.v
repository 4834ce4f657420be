(** mode_dot computes the contraction. *)
From Verif Require Import Py ModeModel ModeSpec.
From mathcomp Require Import all_ssreflect all_algebra.
Import GRing.Theory.
Set Implicit Arguments.
Unset Strict Implicit.
Unset Printing Implicit Defensive.
Local Open Scope ring_scope.

Lemma in_shapeP d i : reflect (size i = size d /\ forall k, (k < size d)%N -> (nth 0%N i k < nth 0%N d k)%N) (in_shape d i).
Proof.
rewrite /in_shape.
elim: d i => [|n d IH] [|k i] /=; try by constructor; split.
- by constructor=> -[].
- by constructor=> -[].
apply: (iffP andP) => [[h1 /IH[h2 h3]]|[[h1] h2]].
- by split=> [|[|j]]; rewrite ?h2 //= => /h3.
- split; first exact: (h2 0%N).
  by apply/IH; split=> // j hj; apply: (h2 j.+1).
Qed.

Lemma in_shape_cat d1 d2 i1 i2 : in_shape d1 i1 -> in_shape d2 i2 -> in_shape (d1 ++ d2) (i1 ++ i2).
Proof. by rewrite /in_shape; elim: d1 i1 => [|n d IH] [|k i] //= /andP[-> /IH h] /h. Qed.

Local Arguments sswap : simpl never.
Lemma nth_sswap i j s k : (k < size s)%N ->
  nth 0%N (sswap i j s) k = nth 0%N s (if k == i then j else if k == j then i else k).
Proof. by move=> h; rewrite /sswap nth_mkseq. Qed.
Lemma size_sswap i j s : size (sswap i j s) = size s.
Proof. by rewrite size_mkseq. Qed.

Lemma size_set s k v : (k < size s)%N -> size (set_nth 0%N s k v) = size s.
Proof. by move=> h; rewrite size_set_nth; apply/maxn_idPr. Qed.

Lemma bidx_in sh s : in_shape sh s -> bidx sh s = s.
Proof.
case/in_shapeP=> hs hk; rewrite /bidx hs subnn drop0.
apply: (@eq_from_nth _ 0%N); rewrite size_map size_zip hs minnn // => i hi.
rewrite (nth_map (0%N, 0%N)) ?size_zip ?hs ?minnn // nth_zip //=.
by case: eqP => // h1; have := hk i hi; rewrite h1 ltnS leqn0 => /eqP.
Qed.

Lemma bidx_nth sh s k : size sh = size s -> (k < size sh)%N ->
  nth 0%N (bidx sh s) k = if nth 0%N sh k == 1%N then 0%N else nth 0%N s k.
Proof.
move=> hs hk; rewrite /bidx hs subnn drop0 (nth_map (0%N, 0%N)) ?size_zip ?hs ?minnn -?hs //.
by rewrite nth_zip.
Qed.
Lemma size_bidx sh s : size sh = size s -> size (bidx sh s) = size sh.
Proof. by move=> hs; rewrite /bidx size_map size_zip hs subnn drop0 minnn. Qed.

Lemma bshape_ok s1 s2 d : size s1 = size d -> size s2 = size d ->
  (forall k, (k < size d)%N -> bdim (nth 0%N s1 k) (nth 0%N s2 k) = Ret (nth 0%N d k)) ->
  bshape s1 s2 = Ret d.
Proof.
elim: d s1 s2 => [|n d IH] [|a s1] [|b s2] //= [h1] [h2] h.
rewrite (h 0%N) //= (IH s1 s2) // => k hk; exact: (h k.+1).
Qed.

Section Mode.
Variable R : comRingType.
Implicit Types (x t m : ndarray R) (s : seq nat).

Lemma swapaxes_ok x i j : (i < size (nshape x))%N -> (j < size (nshape x))%N ->
  swapaxes x i j = Ret (Nd (sswap i j (nshape x)) (fun s => at_ x (sswap i j s))).
Proof. by rewrite /swapaxes /ndim => -> ->. Qed.
Lemma bindE A B (a : A) (f : A -> pyres B) : bind (Ret a) f = f a.
Proof. by []. Qed.

Lemma mat_reshape p axis e n (m : seq nat -> R) : (axis < p)%N ->
  exists sm, [/\ size sm = p.+1,
    forall k, (k < p.+1)%N -> nth 0%N sm k = if k == 0%N then n else if k == axis.+1 then e else 1%N &
    bind (swapaxes (add_back p.-1 (Nd [:: e; n] m)) 0 1) (fun m1 => swapaxes m1 1 axis.+1) =
    Ret (Nd sm (fun s => m (take 2 (sswap 0 1 (sswap 1 axis.+1 s)))))].
Proof.
move=> ax.
have sh0 : (0 < p)%N by apply: leq_ltn_trans ax.
have pE : (p.-1.+2 = p.+1)%N by rewrite prednK.
set sm1 := sswap 0 1 ([:: e; n] ++ nseq p.-1 1%N); set sm := sswap 1 axis.+1 sm1.
have sz1 : size sm1 = p.+1 by rewrite size_sswap /= size_nseq.
have szm : size sm = p.+1 by rewrite size_sswap.
have sm1E k : (k < p.+1)%N -> nth 0%N sm1 k = if k == 0%N then n else if k == 1%N then e else 1%N.
  have sz0 : size ([:: e; n] ++ nseq p.-1 1%N) = p.+1 by rewrite /= size_nseq pE.
  move=> hk; rewrite nth_sswap ?sz0 //.
  case: k hk => [//|[//|k]] hk /=.
  by rewrite nth_nseq -(ltn_add2r 2) !addn2 pE hk.
have smE k : (k < p.+1)%N -> nth 0%N sm k = if k == 0%N then n else if k == axis.+1 then e else 1%N.
  move=> hk; rewrite nth_sswap ?sz1 //.
  have a1 : (axis.+1 < p.+1)%N by rewrite ltnS.
  case: (eqVneq k 1%N) => [->|k1].
    rewrite sm1E // [1%N == axis.+1]eq_sym.
    by case: (axis) => [|?].
  case: (eqVneq k axis.+1) => [->|ka]; first by rewrite sm1E.
  by rewrite sm1E // (negPf k1).
have E1 : swapaxes (add_back p.-1 (Nd [:: e; n] m)) 0 1 = Ret (Nd sm1 (fun s => m (take 2 (sswap 0 1 s)))).
  by rewrite swapaxes_ok //= size_nseq pE.
have E2 : swapaxes (Nd sm1 (fun s => m (take 2 (sswap 0 1 s)))) 1 axis.+1 =
    Ret (Nd sm (fun s => m (take 2 (sswap 0 1 (sswap 1 axis.+1 s))))).
  by apply: swapaxes_ok; rewrite [nshape _]/= sz1 ltnS.
by exists sm; split; rewrite // E1 bindE E2.
Qed.

Lemma bindA A B D (x : pyres A) (f : A -> pyres B) (g : B -> pyres D) :
  bind x (fun a => bind (f a) g) = bind (bind x f) g.
Proof. by case: x. Qed.

Lemma bshape_fail s1 s2 k : size s1 = size s2 -> (k < size s1)%N ->
  bdim (nth 0%N s1 k) (nth 0%N s2 k) = Raise ValueError -> bshape s1 s2 = Raise ValueError.
Proof.
elim: s1 s2 k => [//|a s1 IH] [//|b s2] [|k] /= [e] hk hb; first by rewrite hb.
rewrite (IH _ _ e hk hb) /bdim.
by do 3!case: ifP => // _.
Qed.

(** A matrix whose row count matches neither the axis nor 1 raises ValueError. *)
Lemma mode_dot1_mismatch t m axis e n : (axis < size (nshape t))%N -> nshape m = [:: e; n] ->
  e != nth 0%N (nshape t) axis -> e != 1%N -> nth 0%N (nshape t) axis != 1%N ->
  mode_dot1 t m axis = Raise ValueError.
Proof.
case: t => sh t; case: m => shm m; cbn [nshape] => ax -> ne e1 d1.
have [sm [szm smE mE]] := mat_reshape e n m ax.
rewrite /mode_dot1 [ndim _]/= bindA mE bindE /multiply /ndim.
rewrite [nshape _]/= [nshape (Nd sm _)]/= szm [size _]/= maxnn /lpad szm [size _]/= subnn cat0s cat0s.
rewrite (@bshape_fail (1%N :: sh) sm axis.+1) //=.
by rewrite smE ?ltnS //= eqxx /bdim eq_sym (negPf ne) (negPf d1) (negPf e1).
Qed.

Lemma mode_dot1_ok t m axis n : (axis < size (nshape t))%N ->
  nshape m = [:: nth 0%N (nshape t) axis; n] ->
  exists r, [/\ mode_dot1 t m axis = Ret r,
    nshape r = set_nth 0%N (nshape t) axis n &
    forall s, in_shape (nshape r) s -> at_ r s = \sum_(i < nth 0%N (nshape t) axis)
      at_ t (set_nth 0%N s axis i) * at_ m [:: nat_of_ord i; nth 0%N s axis]].
Proof.
case: t => sh t; case: m => shm m /= ax ->.
set d := nth 0%N sh axis.
have sh0 : (0 < size sh)%N by apply: leq_ltn_trans ax.
set p := size sh in sh0 *.
have [sm [szm smE mE]] := @mat_reshape p axis d n m ax.
have hb : bshape (1%N :: sh) sm = Ret (n :: sh).
  apply: bshape_ok => //=.
  move=> k hk; rewrite smE //.
  case: k hk => [_|k hk] /=; first by rewrite /bdim; case: eqP => [->|].
  rewrite eqSS /bdim; case: (eqVneq k axis) => [->|ka]; first by rewrite -/d eqxx.
  by case: eqP => // _; case: eqP.
rewrite /mode_dot1 [ndim _]/= -/p bindA mE bindE.
rewrite /multiply /ndim [nshape _]/= [nshape (Nd sm _)]/= szm [size _]/= -/p maxnn /lpad szm [size _]/= -/p subnn cat0s cat0s hb.
rewrite bindE bindE [at_ (add_front _)]/= [at_ (Nd sm _)]/=.
set F := (fun s => t _ * _).
set sq := set_nth 0%N sh axis 1%N.
have szq : size sq = p by rewrite size_set.
have E3 : sum_axis axis.+1 (Nd (n :: sh) F) = Ret (Nd (n :: sq) (fun s => \sum_(i < d) F (set_nth 0%N s axis.+1 i))).
  by rewrite /sum_axis /ndim /= ltnS ax.
rewrite E3 bindE swapaxes_ok ?bindE /= ?szq //.
rewrite /first [nshape _]/=.
set fin := sswap 0 axis.+1 (n :: sq).
have finE : fin = 1%N :: set_nth 0%N sh axis n.
  apply: (@eq_from_nth _ 0%N); rewrite size_sswap /= szq ?size_set // => k hk.
  rewrite /fin nth_sswap /= ?szq //.
  case: k hk => [_|k hk] /=; first by rewrite nth_set_nth /= eqxx.
  rewrite eqSS; case: (eqVneq k axis) => [->|ka]; first by rewrite nth_set_nth /= eqxx.
  by rewrite nth_set_nth /= (negPf ka) /sq nth_set_nth /= (negPf ka).
rewrite finE.
eexists; split; first reflexivity; first by [].
move=> s; cbn [at_ nshape] => /in_shapeP[]; rewrite size_set // -/p => ss sk.
apply: eq_bigr => i _.
have is_ := ltn_ord i.
set u := set_nth _ _ _ _.
have uE : u = nth 0%N s axis :: set_nth 0%N s axis i.
  have su : size u = p.+1 by rewrite /u size_set ?size_sswap /= ss.
  apply: (@eq_from_nth _ 0%N); rewrite su /= ?size_set ?ss // => k hk; rewrite /u.
  rewrite nth_set_nth /=; case: (eqVneq k axis.+1) => [->|ka] /=.
    by rewrite nth_set_nth /= eqxx.
  rewrite nth_sswap /= ?ss // (negPf ka).
  case: k hk ka => [//|k] /= hk; rewrite eqSS nth_set_nth /= => ka.
  by rewrite (negPf ka).
have szu : size u = p.+1 by rewrite uE /= size_set ss.
clearbody u; rewrite /F; congr (_ * _).
- rewrite /bidx /= szu -/p subnn drop0 uE /=.
  congr (t _).
  have := @bidx_in sh (set_nth 0%N s axis i).
  rewrite /bidx size_set ?ss // subnn drop0; apply.
  apply/in_shapeP; rewrite size_set ?ss //; split=> // k hk.
  rewrite nth_set_nth /=; case: (eqVneq k axis) => [->|ka]; first exact: ltn_ord.
  by have := sk k hk; rewrite nth_set_nth /= (negPf ka).
- have sv : size (bidx sm u) = p.+1 by rewrite size_bidx ?szm ?szu.
  have na : (nth 0%N s axis < n)%N by have := sk axis ax; rewrite nth_set_nth /= eqxx.
  have s2 : (if 2 < p.+1 then 2 else p.+1)%N = 2%N by move: sh0; case: (p) => [|[]].
  congr (m _); apply: (@eq_from_nth _ 0%N).
    by rewrite size_take !size_sswap sv s2.
  have p1 : (1 < p.+1)%N by rewrite ltnS.
  have t2 k : (k < 2)%N -> nth 0%N (take 2 (sswap 0 1 (sswap 1 axis.+1 (bidx sm u)))) k = nth 0%N (sswap 0 1 (sswap 1 axis.+1 (bidx sm u))) k.
    by move=> hk; rewrite nth_take.
  move=> k; rewrite size_take !size_sswap sv s2 => k2.
  rewrite t2 // nth_sswap ?size_sswap ?sv; last by apply: leq_trans k2 _.
  case: k k2 => [|[|//]] _; rewrite ?eqxx.
    rewrite nth_sswap ?sv // bidx_nth ?szm ?szu // smE // uE /= eqxx.
    case: eqP => [d1|_]; first by have := leq_trans is_ (eq_leq d1); rewrite ltnS leqn0 => /eqP.
    by rewrite nth_set_nth /= eqxx.
  rewrite nth_sswap ?sv // bidx_nth ?szm ?szu // smE //= uE /=.
  by case: eqP => [n1|//]; move: na; rewrite n1 ltnS leqn0 => /eqP.
Qed.

(** Contraction of axes axis, axis+1, ... with the matrices ms. *)
Lemma sum_indices_eq d (f g : seq nat -> R) : (forall i, in_shape d i -> f i = g i) ->
  sum_indices d f = sum_indices d g.
Proof.
elim: d f g => [|n d IH] f g h /=; first exact: h.
apply: eq_bigr => i _; apply: IH => s hs; apply: h; rewrite /= hs andbT; exact: ltn_ord.
Qed.

Lemma sum_indices_mul d (c : R) (f : seq nat -> R) : sum_indices d (fun i => f i * c) = sum_indices d f * c.
Proof.
elim: d f => [//|n d IH] f /=; rewrite big_distrl /=; apply: eq_bigr => i _; exact: IH.
Qed.

Lemma sum_indices_exch n d (f : nat -> seq nat -> R) :
  \sum_(i < n) sum_indices d (f i) = sum_indices d (fun s => \sum_(i < n) f i s).
Proof.
elim: d f => [//|m d IH] f /=; rewrite exchange_big; apply: eq_bigr => j _; exact: (IH (fun i s => f i (nat_of_ord j :: s))).
Qed.

(** The product of the matrix entries m_k[i_k, a_k]. *)
Fixpoint prod_entries (ms : seq (ndarray R)) (i a : seq nat) : R :=
  match ms, i, a with
  | m :: ms', k :: i', b :: a' => at_ m [:: k; b] * prod_entries ms' i' a'
  | _, _, _ => 1
  end.

Definition cols m := nth 0%N (nshape m) 1.

Lemma mode_dot_loop_ok ms (t : ndarray R) pre dims post :
  nshape t = pre ++ dims ++ post -> size dims = size ms ->
  (forall k, (k < size ms)%N -> exists n, nshape (nth t ms k) = [:: nth 0%N dims k; n]) ->
  exists r, [/\ mode_dot_loop t ms (size pre) = Ret r,
    nshape r = pre ++ map cols ms ++ post &
    forall p a q, in_shape pre p -> in_shape (map cols ms) a -> in_shape post q ->
      at_ r (p ++ a ++ q) = sum_indices dims (fun i => at_ t (p ++ i ++ q) * prod_entries ms i a)].
Proof.
elim: ms t pre dims => [|m ms IH] t pre dims hs hd hm /=.
  exists t; split=> // [|p a q _]; first by rewrite hs; case: dims hd {hs hm}.
  by case: dims hd {hs hm} => //= _; case: a => //= _ _; rewrite mulr1.
case: dims hs hd hm => [//|d dims] hs [hd] hm.
have [n mE] := hm 0%N isT; rewrite /= in mE.
have cm : cols m = n by rewrite /cols mE.
have ax : (size pre < size (nshape t))%N by rewrite hs size_cat /= -addSnnS leq_addr.
have nd : nth 0%N (nshape t) (size pre) = d by rewrite hs nth_cat ltnn subnn.
case: (@mode_dot1_ok t m (size pre) n ax) => [|r [h1 h2 h3]]; first by rewrite nd.
have setE (v w : seq nat) : size v = size pre -> forall x0 y0 : nat, set_nth 0%N (v ++ x0 :: w) (size pre) y0 = v ++ y0 :: w.
  by move=> <- x y; elim: v => //= z v ->.
have rs : nshape r = (pre ++ [:: n]) ++ dims ++ post by rewrite h2 hs cat_cons (setE pre) // -catA.
case: (IH r (pre ++ [:: n]) dims rs hd) => [k hk|r' [g1 g2 g3]].
  by have [n' e] := hm k.+1 hk; exists n'; rewrite -e /= (set_nth_default t).
exists r'; split.
- by rewrite h1 bindE -g1 size_cat addn1.
- by rewrite g2 cm -catA.
move=> p a q hp ha hq.
case: a ha => [//|b a] /=.
rewrite cm => /andP[hb ha].
have hp' : in_shape (pre ++ [:: n]) (p ++ [:: b]).
  by apply: in_shape_cat => //; rewrite /in_shape /= hb.
have := g3 (p ++ [:: b]) a q hp' ha hq.
rewrite -catA /= => ->.
rewrite (@sum_indices_exch d dims (fun k s => at_ t (p ++ k :: s ++ q) * (at_ m [:: k; b] * prod_entries ms s a))).
apply: sum_indices_eq => i hi.
have hin : in_shape (nshape r) ((p ++ [:: b]) ++ i ++ q).
  by rewrite rs; do 2!apply: in_shape_cat => //.
rewrite h3 // nd big_distrl /=.
have szp : size p = size pre by case/in_shapeP: hp.
apply: eq_bigr => j _.
rewrite -catA /= (setE p) // nth_cat szp ltnn subnn /= -!mulrA; congr (_ * _).
Qed.

Lemma prod_entriesE t0 ms i a : size i = size ms -> size a = size ms ->
  prod_entries ms i a = \prod_(k < size ms) at_ (nth t0 ms k) [:: nth 0%N i k; nth 0%N a k].
Proof.
elim: ms i a => [|m ms IH] [|x i] [|y a] //=; first by rewrite big_ord0.
by move=> [e1] [e2]; rewrite big_ord_recl /= IH.
Qed.

Lemma mode_dot_ok (t : ndarray R) ms :
  size ms = size (nshape t) ->
  (forall k, (k < size ms)%N -> exists n, nshape (nth t ms k) = [:: nth 0%N (nshape t) k; n]) ->
  exists r, [/\ mode_dot t ms = Ret r, nshape r = map cols ms &
    forall a, in_shape (map cols ms) a ->
      at_ r a = sum_indices (nshape t) (fun i => at_ t i * prod_entries ms i a)].
Proof.
move=> sz hm.
have hs : nshape t = [::] ++ nshape t ++ [::] by rewrite cats0.
have [r [h1 h2 h3]] := mode_dot_loop_ok hs (esym sz) hm.
exists r; split=> //; first by rewrite h2 cats0.
move=> a ha; have := h3 [::] a [::] isT ha isT; rewrite cats0 => ->.
by apply: sum_indices_eq => i _; rewrite cats0.
Qed.
End Mode.
