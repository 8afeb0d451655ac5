(*HEAD
(** Property C102: the condition numbers of the mixed-model oracle (src/pysr3/lme/oracles.py). *)
From Coq Require Import String.
From Verif.Base Require Import Py Vec RMx.
From mathcomp Require Import ssreflect ssrfun ssrbool eqtype ssrnat choice seq fintype
  finfun bigop finset ssralg matrix mxalgebra.
From Verif.Model Require Import LmeOracle LmeDiagnostics.
From Verif.Spec Require Import MxSpec DiagnosticsSpec.
HEAD*)
From Coq Require Import Reals Lra String.
From Verif.Base Require Import Py Vec RMx.
From Verif.Proofs Require Import VecFacts.
From mathcomp Require Import ssreflect ssrfun ssrbool eqtype ssrnat choice seq fintype
  finfun bigop finset ssralg matrix mxalgebra.
From Verif.Model Require Import LmeOracle LmeDiagnostics.
From Verif.Spec Require Import MxSpec DiagnosticsSpec.
From Verif.Proofs Require Import MxFacts.
Set Implicit Arguments.
Unset Strict Implicit.
Unset Printing Implicit Defensive.
Import GRing.Theory.
(*OPEN
Set Implicit Arguments.
Unset Strict Implicit.
Unset Printing Implicit Defensive.
Local Open Scope ring_scope.
OPEN*)
Local Open Scope ring_scope.
Local Open Scope res_scope.

Lemma reqbP (a b : R) : reflect (a = b) (reqb a b).
Proof. by rewrite /reqb; case: Req_EM_T => h; constructor. Qed.

(** ** minimum and maximum of a list *)
Lemma py_minP (l : seq R) m : py_min l = Ok m -> m \in l /\ forall a, a \in l -> (m <= a)%coqR.
Proof.
  case: l => [|b l] //= [<-]; elim: l => [|c l [IH1 IH2]] /=.
    by split; [rewrite mem_seq1|move=> a; rewrite mem_seq1 => /eqP ->; lra].
  split.
    have [->|->] : Rmin c (foldr Rmin b l) = c \/ Rmin c (foldr Rmin b l) = foldr Rmin b l
      by rewrite /Rmin; case: Rle_dec; auto.
      by rewrite !inE eqxx orbT.
      by move: IH1; rewrite !inE => /orP [->|->]; rewrite ?orbT.
  move=> a; rewrite !inE => /or3P [/eqP ->|/eqP ->|h].
  - have := IH2 b; rewrite inE eqxx => /(_ isT); have := Rmin_r c (foldr Rmin b l); lra.
  - exact: Rmin_l.
  - have := IH2 a; rewrite inE h orbT => /(_ isT); have := Rmin_r c (foldr Rmin b l); lra.
Qed.
Lemma py_maxP (l : seq R) m : py_max l = Ok m -> m \in l /\ forall a, a \in l -> (a <= m)%coqR.
Proof.
  case: l => [|b l] //= [<-]; elim: l => [|c l [IH1 IH2]] /=.
    by split; [rewrite mem_seq1|move=> a; rewrite mem_seq1 => /eqP ->; lra].
  split.
    have [->|->] : Rmax c (foldr Rmax b l) = c \/ Rmax c (foldr Rmax b l) = foldr Rmax b l
      by rewrite /Rmax; case: Rle_dec; auto.
      by rewrite !inE eqxx orbT.
      by move: IH1; rewrite !inE => /orP [->|->]; rewrite ?orbT.
  move=> a; rewrite !inE => /or3P [/eqP ->|/eqP ->|h].
  - have := IH2 b; rewrite inE eqxx => /(_ isT); have := Rmax_r c (foldr Rmax b l); lra.
  - exact: Rmax_l.
  - have := IH2 a; rewrite inE h orbT => /(_ isT); have := Rmax_r c (foldr Rmax b l); lra.
Qed.
Lemma py_max_ok (l : seq R) m : py_min l = Ok m -> exists M, py_max l = Ok M.
Proof. by case: l => [|a l] //= _; eexists. Qed.

(** ** the values l describe how f stretches vectors *)
Definition piece_ok (n : nat) (f : 'cV[R]_n -> R) (l : seq R) : Prop :=
  (forall a, a \in l -> (0 <= a)%coqR) /\
  (forall lo, (forall a, a \in l -> (lo <= a)%coqR) -> forall u, (lo * sumsq u <= f u)%coqR) /\
  (forall hi, (forall a, a \in l -> (a <= hi)%coqR) -> forall u, (f u <= hi * sumsq u)%coqR) /\
  (forall a, a \in l -> exists u, u <> 0 /\ f u = (a * sumsq u)%coqR).

Lemma sumsq_orth n (Q : 'M[R]_n) (u : 'cV[R]_n) : Q^T *m Q = 1%:M -> sumsq (Q^T *m u) = sumsq u.
Proof.
  by move=> h; rewrite !sumsqE trmx_mul trmxK -mulmxA (mulmxA Q) (mulmx1C h) mul1mx.
Qed.
Lemma mem_entries n (v : 'cV[R]_n) i : v i ord0 \in entries v.
Proof. by apply/mapP; exists i; rewrite ?mem_enum. Qed.
Lemma entriesP n (v : 'cV[R]_n) a : a \in entries v -> exists i, a = v i ord0.
Proof. by move=> /mapP [i _ ->]; exists i. Qed.

Lemma svd_piece svd m n (X : 'M[R]_(m, n)) s : svd_ok svd -> svd n (X^T *m X) = Ok s ->
  piece_ok (fun u => sumsq (X *m u)) (entries s).
Proof.
  move=> hs hv; have [h0 [Q [hQ hA]]] := hs _ _ _ (psd_gram X) hv.
  have e (u : 'cV[R]_n) : sumsq (X *m u) = \sum_i (s i ord0 * (Q^T *m u) i ord0 ^ 2)%coqR.
    rewrite sumsqE trmx_mul -qf_diagv /qf trmx_mul trmxK -(mulmxA u^T) (mulmxA X^T) hA.
    by rewrite !mulmxA.
  split; first by move=> a /entriesP [i ->]; exact: h0.
  split; [|split].
  - move=> lo hlo u; rewrite e -(sumsq_orth u hQ) /sumsq.
    have -> : (lo * \sum_i ((Q^T *m u) i ord0 ^ 2)%coqR)%coqR = \sum_i (lo * (Q^T *m u) i ord0 ^ 2)%coqR.
      exact: (mulr_sumr (R := R_ringType)).
    apply: sum_le => i _; apply: Rmult_le_compat_r; first exact: pow2_ge_0.
    exact/hlo/mem_entries.
  - move=> hi hhi u; rewrite e -(sumsq_orth u hQ) /sumsq.
    have -> : (hi * \sum_i ((Q^T *m u) i ord0 ^ 2)%coqR)%coqR = \sum_i (hi * (Q^T *m u) i ord0 ^ 2)%coqR.
      exact: (mulr_sumr (R := R_ringType)).
    apply: sum_le => i _; apply: Rmult_le_compat_r; first exact: pow2_ge_0.
    exact/hhi/mem_entries.
  - move=> a /entriesP [i ->]; exists (Q *m delta_mx i ord0).
    have eq : Q^T *m (Q *m delta_mx i ord0) = delta_mx i ord0 :> 'cV[R]_n by rewrite mulmxA hQ mul1mx.
    have pick (c : 'I_n -> R) : \sum_j (c j * (delta_mx i ord0 : 'cV[R]_n) j ord0 ^ 2)%coqR = c i.
      rewrite (bigD1 i) //= big1 => [|j hj]; rewrite mxE.
        by rewrite !eqxx mulr1n; toR; ring.
      by rewrite (negbTE hj) mulr0n; toR; ring.
    have n1 : sumsq (Q *m delta_mx i ord0 : 'cV[R]_n) = 1%coqR.
      rewrite -(sumsq_orth _ hQ) eq /sumsq -[RHS](pick (fun=> 1%coqR)).
      by apply: eq_bigr => j _; rewrite Rmult_1_l.
    split; last by rewrite e eq pick n1 Rmult_1_r.
    move=> h; move: n1; rewrite h /sumsq big1 => [|j _]; last by rewrite mxE; toR; ring.
    by move=> /esym; exact: R1_neq_R0.
Qed.

(** ** from the pieces to the quotient *)
Lemma spread_inv l c : spread l = Ok c -> exists lo hi, py_min l = Ok lo /\ py_max l = Ok hi /\
  c = (if reqb lo 0%coqR then PInf else Fin (hi / lo)%coqR).
Proof.
  rewrite /spread; case E: (py_min l) => [lo|] //=; have [hi h] := py_max_ok E.
  rewrite h /=; case F: (reqb lo 0%coqR) => /= - [<-]; exists lo, hi; by rewrite F.
Qed.

Section Pieces.
Variable n : nat.
Implicit Types (f : 'cV[R]_n -> R) (l : seq R).

Lemma piece_condition f l c : piece_ok f l -> spread l = Ok c -> squared_condition_number f c.
Proof.
  move=> [_ [h1 [h2 h3]]] /spread_inv [lo [hi [/py_minP [m1 m2] [/py_maxP [m3 m4] ->]]]].
  by exists lo, hi; do ! split; auto.
Qed.

Lemma flatten_piece (fs : seq ('cV[R]_n -> R)) ls : List.Forall2 (@piece_ok n) fs ls ->
  forall a, a \in flatten ls -> exists f l, List.In f fs /\ piece_ok f l /\ a \in l.
Proof.
  elim=> [|f l fs' ls' h _ IH] a //=; rewrite mem_cat => /orP [ha|ha].
    by exists f, l; split; [left|].
  by have [f' [l' [? ?]]] := IH _ ha; exists f', l'; split; [right|].
Qed.
Lemma piece_flatten (fs : seq ('cV[R]_n -> R)) ls f : List.Forall2 (@piece_ok n) fs ls ->
  List.In f fs -> exists l, piece_ok f l /\ forall a, a \in l -> a \in flatten ls.
Proof.
  elim=> [|f' l fs' ls' h _ IH] //= [<-|hf].
    by exists l; split=> // a ha; rewrite mem_cat ha.
  by have [l' [? h']] := IH hf; exists l'; split=> // a /h' ha; rewrite mem_cat ha orbT.
Qed.
Lemma sum_bound (I : Type) (r : seq I) (F : I -> R) lo hi :
  (forall i, List.In i r -> (lo <= F i <= hi)%coqR) ->
  (INR (size r) * lo <= \sum_(i <- r) F i <= INR (size r) * hi)%coqR.
Proof.
  elim: r => [|i r IH] h; first by rewrite big_nil /=; toR; lra.
  rewrite big_cons (_ : size (i :: r) = (size r).+1) // S_INR RaddE.
  have := h i (or_introl erefl); have := IH (fun j hj => h j (or_intror hj)).
  move: (\sum_(j <- r) F j) => t; lra.
Qed.

Lemma pieces_upper (I : Type) (r : seq I) (F : I -> 'cV[R]_n -> R) ls k lo hi :
  List.Forall2 (@piece_ok n) [seq F i | i <- r] ls -> spread (flatten ls) = Ok (Fin k) ->
  stretches (fun u => \sum_(i <- r) F i u) lo hi ->
  (0 < lo)%coqR /\ (hi / lo <= k)%coqR.
Proof.
  move=> hp /spread_inv [m [M [/py_minP [m1 m2] [/py_maxP [m3 m4] e]]]] [_ [[u [u0 hu]] [w [w0 hw]]]].
  have hm : (0 <= m)%coqR by have [f [l [_ [[h _] hl]]]] := flatten_piece hp m1; exact: h.
  have hm0 : m <> 0%coqR.
    by move=> h; move: e; rewrite h; case: reqbP.
  have {e} -> : k = (M / m)%coqR by move: e; case: reqbP => // _ [->].
  have hr : r <> [::] by move=> h; move: hp m1; rewrite h /= => hp; inversion hp.
  have bnd (v : 'cV[R]_n) i : List.In i r -> (m * sumsq v <= F i v <= M * sumsq v)%coqR.
    move=> hi'; have [l [[_ [h1 [h2 _]]] hl]] := piece_flatten hp (List.in_map F r i hi').
    by split; [apply: h1 => a /hl /m2|apply: h2 => a /hl /m4].
  have N : (1 <= INR (size r))%coqR.
    case: (r) hr => [|i r'] // _; rewrite (_ : size (i :: r') = (size r').+1) // S_INR.
    have := pos_INR (size r'); lra.
  have B v := sum_bound (@bnd v).
  have := B u; have := B w; rewrite hu hw.
  have := sumsq_gt0 u0; have := sumsq_gt0 w0.
  move: (sumsq u) (sumsq w) (INR (size r)) N => a b c N hb ha [_ hH] [hL _].
  have hlo : (c * m <= lo)%coqR by apply: (Rmult_le_reg_r a); nra.
  have hhi : (hi <= c * M)%coqR by apply: (Rmult_le_reg_r b); nra.
  have h0 : (0 < lo)%coqR by have : (0 < c * m)%coqR; nra.
  split=> //; have hM : (0 <= M)%coqR by have := m2 _ m3; lra.
  apply: (Rmult_le_reg_r (lo * m)); first nra.
  have -> : (hi / lo * (lo * m) = hi * m)%coqR by field; lra.
  have -> : (M / m * (lo * m) = M * lo)%coqR by field; lra.
  nra.
Qed.

Lemma pieces_infinite (I : Type) (r : seq I) (F : I -> 'cV[R]_n -> R) ls c :
  List.Forall2 (@piece_ok n) [seq F i | i <- r] ls -> spread (flatten ls) = Ok c ->
  c = PInf <-> exists i u, List.In i r /\ u <> 0 /\ F i u = 0%coqR.
Proof.
  move=> hp /spread_inv [m [M [/py_minP [m1 m2] [_ ->]]]]; split.
    case: reqbP => // e _; have [f [l [hf [[_ [_ [_ h]]] hl]]]] := flatten_piece hp m1.
    have [i [ei hi]] := (proj1 (List.in_map_iff F r f) hf); subst f.
    by have [u [u0 hu]] := h _ hl; exists i, u; rewrite hu e; split=> //; split=> //; ring.
  move=> [i [u [hi [u0 hu]]]]; case: reqbP => // h.
  have hm : (0 <= m)%coqR by have [f [l [_ [[h' _] hl]]]] := flatten_piece hp m1; exact: h'.
  have [l [[_ [h1 _]] hl]] := piece_flatten hp (List.in_map F r i hi).
  have := h1 m (fun a ha => m2 a (hl a ha)) u; rewrite hu.
  have := sumsq_gt0 u0; nra.
Qed.
End Pieces.

Section Groups.
Variables (p q : nat) (svd : forall n, 'M[R]_n -> res 'cV[R]_n).
Hypothesis hs : svd_ok svd.
Implicit Types (gs : seq (group p q)).

Lemma condition_inv gs cx cz : get_condition_numbers svd gs = Ok (cx, cz) ->
  exists lx lz,
  List.Forall2 (@piece_ok p) [seq (fun u => sumsq (g_x g *m u)) | g <- gs] lx /\
  List.Forall2 (@piece_ok q) [seq (fun u => sumsq (g_z g *m u)) | g <- gs] lz /\
  spread (flatten lx) = Ok cx /\ spread (flatten lz) = Ok cz.
Proof.
  rewrite /get_condition_numbers; case E: sequence => [ss|] //=.
  case Ex: spread => [a|] //=; case Ez: spread => [b|] //= [<- <-].
  exists [seq s.1 | s <- ss], [seq s.2 | s <- ss].
  suff [? ?] : List.Forall2 (@piece_ok p) [seq (fun u => sumsq (g_x g *m u)) | g <- gs] [seq s.1 | s <- ss] /\
    List.Forall2 (@piece_ok q) [seq (fun u => sumsq (g_z g *m u)) | g <- gs] [seq s.2 | s <- ss] by [].
  move {Ex Ez}; elim: gs ss E => [|g gs IH] ss /=; first by move=> [<-] /=; split; constructor.
  case Eg: group_singular_values => [s|] //=; case E: sequence => [ss'|] //= [<-] /=.
  have [IH1 IH2] := IH _ E; move: Eg; rewrite /group_singular_values.
  case Ex: svd => [sx|] //=; case Ez: svd => [sz|] //= [<-] /=.
  by split; (apply: List.Forall2_cons; last by []); [exact: (svd_piece hs Ex)|exact: (svd_piece hs Ez)].
Qed.
End Groups.

(*@ C102 (partial).  For a single group the two numbers are the squares of the condition numbers of its X and Z. *)
Lemma condition_numbers_one_group_partial_lemma :
  forall p q svd (g : group p q) cx cz, svd_ok svd ->
  get_condition_numbers svd [:: g] = Ok (cx, cz) ->
  squared_condition_number (fun u => sumsq (g_x g *m u)) cx /\
  squared_condition_number (fun u => sumsq (g_z g *m u)) cz.
Proof.
  move=> p q svd g cx cz hs /(condition_inv hs) [lx [lz [/= hx [hz []]]]].
  inversion hx as [|? l ? ? h1 h2]; inversion h2; subst.
  inversion hz as [|? l' ? ? h1' h2']; inversion h2'; subst.
  by rewrite /= !cats0 => e e'; split; [exact: (piece_condition h1 e)|exact: (piece_condition h1' e')].
Qed.

(*@ C102 (partial).  For any number of groups a finite number is at least the squared condition number of the
    matrices of all groups on top of each other, which then has full column rank. *)
Lemma condition_numbers_upper_partial_lemma :
  forall p q svd (gs : seq (group p q)) cx cz, svd_ok svd ->
  get_condition_numbers svd gs = Ok (cx, cz) ->
  (forall k lo hi, cx = Fin k -> stretches (stacked_x gs) lo hi -> (0 < lo)%coqR /\ (hi / lo <= k)%coqR) /\
  (forall k lo hi, cz = Fin k -> stretches (stacked_z gs) lo hi -> (0 < lo)%coqR /\ (hi / lo <= k)%coqR).
Proof.
  move=> p q svd gs cx cz hs /(condition_inv hs) [lx [lz [hx [hz [ex ez]]]]]; split=> k lo hi e h.
    by rewrite e in ex; exact: (pieces_upper hx ex h).
  by rewrite e in ez; exact: (pieces_upper hz ez h).
Qed.

(*@ C102 (partial).  A number is infinite exactly when the matrix of at least one group has dependent columns. *)
Lemma condition_numbers_infinite_partial_lemma :
  forall p q svd (gs : seq (group p q)) cx cz, svd_ok svd ->
  get_condition_numbers svd gs = Ok (cx, cz) ->
  (cx = PInf <-> exists g (u : 'cV[R]_p), List.In g gs /\ u <> 0 /\ g_x g *m u = 0) /\
  (cz = PInf <-> exists g (u : 'cV[R]_q), List.In g gs /\ u <> 0 /\ g_z g *m u = 0).
Proof.
  have aux n m (X : 'M[R]_(m, n)) u : sumsq (X *m u) = 0%coqR <-> X *m u = 0.
    by split=> [/sumsq_eq0 //|->]; rewrite /sumsq big1 // => i _; rewrite mxE; toR; ring.
  move=> p q svd gs cx cz hs /(condition_inv hs) [lx [lz [hx [hz [ex ez]]]]]; split.
    apply: (iff_trans (pieces_infinite hx ex)).
    by split=> - [g [u [? [? h]]]]; exists g, u; split=> //; split=> //; apply/aux.
  apply: (iff_trans (pieces_infinite hz ez)).
  by split=> - [g [u [? [? h]]]]; exists g, u; split=> //; split=> //; apply/aux.
Qed.

(** ** examples *)
Lemma svd_of_diagonal_ok : svd_ok svd_of_diagonal.
Proof.
  move=> n A s hA; rewrite /svd_of_diagonal; case: eqP => // e [<-]; split; last first.
    by exists 1%:M; rewrite trmx1 !mulmx1 mul1mx.
  move=> i; have := proj2 hA (delta_mx i ord0); rewrite {1}e qf_diagv (bigD1 i) //= big1 => [|j hj].
    by rewrite !mxE !eqxx !mulr1n; toR; lra.
  by rewrite [delta_mx _ _ _ _]mxE (negbTE hj) mulr0n; toR; ring.
Qed.
Lemma svd_diagv n (w : 'cV[R]_n) : svd_of_diagonal (diagv w) = Ok w.
Proof.
  have e : \col_i diagv w i i = w by apply/colP => i; rewrite mxE diagvE eqxx mulr1n.
  by rewrite /svd_of_diagonal e eqxx.
Qed.
Lemma entries2 (w : 'cV[R]_2) : entries w = [:: w ord0 ord0; w (lift ord0 ord0) ord0].
Proof. by rewrite /entries enum_ordSl /= enum_ordSl /= enum_ord0. Qed.

Lemma gram_diagv n (w : 'cV[R]_n) : (diagv w)^T *m diagv w = diagv (\col_i (w i ord0 ^ 2)%coqR).
Proof.
  apply/matrixP => i j; rewrite diagv_tr mul_diagv !diagvE mxE; case: eqP => [->|_].
    by rewrite !mulr1n; toR; ring.
  by rewrite !mulr0n; toR; ring.
Qed.
Lemma gram_unit_row (j : 'I_2) :
  (delta_mx ord0 j : 'M[R]_(1, 2))^T *m (delta_mx ord0 j : 'M[R]_(1, 2)) = diagv (delta_mx j ord0).
Proof.
  rewrite trmx_delta mul_delta_mx; apply/matrixP => i k; rewrite diagvE !mxE andbT.
  case: (altP (i =P j)) => [->|h] /=; last by rewrite mul0rn.
  by rewrite eq_sym -[1%:R *+ _]mulrnA mul1n.
Qed.

Lemma scaled_numbers : get_condition_numbers svd_of_diagonal [:: scaled] = Ok (Fin 4, Fin 4).
Proof.
  rewrite /get_condition_numbers /= /group_singular_values /= gram_diagv svd_diagv /= cats0 entries2 !mxE /=.
  rewrite /spread /= /Rmin /Rmax; case: Rle_dec => [h|_]; first lra.
  case: reqbP => [h|_] /=; first lra.
  by have -> : (2 * (2 * 1) / (1 * (1 * 1)) = 4)%coqR by field.
Qed.
Lemma unit_rows_numbers :
  get_condition_numbers svd_of_diagonal [:: unit_row ord0; unit_row (lift ord0 ord0)] = Ok (PInf, PInf).
Proof.
  rewrite /get_condition_numbers /= /group_singular_values /= !gram_unit_row !svd_diagv /= !entries2 !mxE /=.
  rewrite /spread /=; case: reqbP => // h; exfalso; apply: h.
  rewrite !mulr1n !mulr0n; toR.
  by rewrite (Rmin_left 1 1) ?(Rmin_left 0 1) ?(Rmin_left 0 0) //; lra.
Qed.
Lemma stretches_unique n (f : 'cV[R]_n -> R) lo hi lo' hi' :
  stretches f lo hi -> stretches f lo' hi' -> lo = lo' /\ hi = hi'.
Proof.
  move=> [b [[u [u0 hu]] [w [w0 hw]]]] [b' [[u' [u0' hu']] [w' [w0' hw']]]].
  have := b u'; have := b w'; have := b' u; have := b' w; rewrite hu hw hu' hw'.
  have := sumsq_gt0 u0; have := sumsq_gt0 u0'; have := sumsq_gt0 w0; have := sumsq_gt0 w0'.
  move=> h1 h2 h3 h4 [_ H1] [H2 _] [_ H3] [H4 _]; split.
    apply: Rle_antisym; [exact: (Rmult_le_reg_r _ _ _ h3 H4)|exact: (Rmult_le_reg_r _ _ _ h4 H2)].
  apply: Rle_antisym; [exact: (Rmult_le_reg_r _ _ _ h2 H1)|exact: (Rmult_le_reg_r _ _ _ h1 H3)].
Qed.
Lemma unit_rows_stacked u :
  stacked_x [:: unit_row ord0; unit_row (lift ord0 ord0)] u = sumsq u.
Proof.
  rewrite /stacked_x !big_cons big_nil /sumsq /= !big_ord_recl !big_ord0 !mxE !big_ord_recl !big_ord0 !mxE /=.
  rewrite !mulr1n !mulr0n; toR; ring.
Qed.
Lemma unit_rows_stretches :
  stretches (stacked_x [:: unit_row ord0; unit_row (lift ord0 ord0)]) 1 1.
Proof.
  have h : exists u : 'cV[R]_2, u <> 0 /\
      stacked_x [:: unit_row ord0; unit_row (lift ord0 ord0)] u = (1 * sumsq u)%coqR.
    exists (const_mx 1); rewrite unit_rows_stacked; split; last by rewrite Rmult_1_l.
    by move/matrixP/(_ ord0 ord0); rewrite !mxE; exact: R1_neq_R0.
  by split; [move=> u; rewrite unit_rows_stacked; lra|].
Qed.

Lemma scaled_stretches : stretches (stacked_x [:: scaled]) 1 4.
Proof.
  have es u : stacked_x [:: scaled] u = (u ord0 ord0 ^ 2 + 4 * u (lift ord0 ord0) ord0 ^ 2)%coqR.
    rewrite /stacked_x big_cons big_nil /sumsq /= !big_ord_recl big_ord0.
    by rewrite !mul_diagv !mxE /=; toR; ring.
  have su (u : 'cV[R]_2) : sumsq u = (u ord0 ord0 ^ 2 + u (lift ord0 ord0) ord0 ^ 2)%coqR.
    by rewrite /sumsq !big_ord_recl big_ord0; toR; ring.
  split; first by move=> u; rewrite es su; have := pow2_ge_0 (u ord0 ord0);
    have := pow2_ge_0 (u (lift ord0 ord0) ord0); lra.
  split; [exists (delta_mx ord0 ord0)|exists (delta_mx (lift ord0 ord0) ord0)]; split.
  - by move/matrixP/(_ ord0 ord0); rewrite !mxE; exact: R1_neq_R0.
  - by rewrite es su !mxE /= !mulr1n !mulr0n; toR; ring.
  - by move/matrixP/(_ (lift ord0 ord0) ord0); rewrite !mxE; exact: R1_neq_R0.
  - by rewrite es su !mxE /= !mulr1n !mulr0n; toR; ring.
Qed.

(*@ C102 is refuted.  For one group with X = diag(1, 2) the answer is 4 although the condition number is 2; and for
    two groups of one observation each, with X on top of each other the identity, the answer is infinite although the
    condition number is 1. *)
Lemma condition_numbers_refuted_lemma :
  svd_ok svd_of_diagonal /\
  (get_condition_numbers svd_of_diagonal [:: scaled] = Ok (Fin 4, Fin 4) /\
   condition_number (stacked_x [:: scaled]) (Fin 2) /\ ~ condition_number (stacked_x [:: scaled]) (Fin 4)) /\
  (get_condition_numbers svd_of_diagonal [:: unit_row ord0; unit_row (lift ord0 ord0)] = Ok (PInf, PInf) /\
   condition_number (stacked_x [:: unit_row ord0; unit_row (lift ord0 ord0)]) (Fin 1)).
Proof.
  split; first exact: svd_of_diagonal_ok.
  have e1 (a : R) (x y : ereal) : a <> 0%coqR -> (if reqb a 0%coqR then x else y) = y by case: reqbP.
  split; last first.
    split; first exact: unit_rows_numbers.
    exists 1%coqR, 1%coqR; split; first exact: unit_rows_stretches.
    rewrite e1; last lra.
    by rewrite sqrt_1 /Rdiv Rinv_1 Rmult_1_r.
  split; first exact: scaled_numbers.
  have st := scaled_stretches.
  have s2 : (sqrt 4 / sqrt 1 = 2)%coqR.
    by rewrite sqrt_1 (_ : 4 = 2 * 2)%coqR ?sqrt_square; lra.
  split.
    by exists 1%coqR, 4%coqR; split=> //; rewrite e1 ?s2 //; lra.
  move=> [lo [hi [st' ]]]; have [<- <-] := stretches_unique st st'.
  rewrite e1; last lra.
  by rewrite s2 => - [h]; lra.
Qed.

(*@ one group: the numbers are squared condition numbers, and finite since the columns are independent *)
Lemma ex_condition_numbers_one_group_partial_lemma :
  svd_ok svd_of_diagonal /\
  get_condition_numbers svd_of_diagonal [:: scaled] = Ok (Fin 4, Fin 4) /\
  squared_condition_number (fun u => sumsq (g_x scaled *m u)) (Fin 4) /\
  ~ (exists g (u : 'cV[R]_2), List.In g [:: scaled] /\ u <> 0 /\ g_x g *m u = 0).
Proof.
  have [h1 _] := condition_numbers_one_group_partial_lemma svd_of_diagonal_ok scaled_numbers.
  have [h2 _] := condition_numbers_infinite_partial_lemma svd_of_diagonal_ok scaled_numbers.
  split; first exact: svd_of_diagonal_ok.
  split; first exact: scaled_numbers.
  by split=> // /h2.
Qed.
(*@ the bound for two groups with the same matrix *)
Lemma ex_condition_numbers_upper_partial_lemma :
  get_condition_numbers svd_of_diagonal [:: scaled; scaled] = Ok (Fin 4, Fin 4) /\
  stretches (stacked_x [:: scaled; scaled]) 2 8.
Proof.
  split.
    rewrite /get_condition_numbers /= /group_singular_values /= gram_diagv svd_diagv /= cats0 entries2 !mxE /=.
    rewrite /spread /= (_ : 2 * (2 * 1) = 4)%coqR; last ring.
    rewrite (_ : 1 * (1 * 1) = 1)%coqR; last ring.
    rewrite ?(Rmin_left 1 1) ?(Rmax_left 1 1) ?(Rmin_right 4 1) ?(Rmax_left 4 1) ?(Rmin_left 1 4); try lra.
    rewrite ?(Rmax_right 1 4) ?(Rmax_left 4 4) ?(Rmin_left 1 1) ?(Rmin_right 4 1); try lra.
    case: reqbP => [h|_] /=; first lra.
    by have -> : (4 / 1 = 4)%coqR by field.
  have e u : stacked_x [:: scaled; scaled] u = (2 * stacked_x [:: scaled] u)%coqR.
    rewrite /stacked_x !big_cons !big_nil; move: (sumsq _) => t; toR; ring.
  have [b [[u [u0 hu]] [w [w0 hw]]]] := scaled_stretches.
  split; first by move=> v; rewrite e; have := b v; lra.
  by split; [exists u|exists w]; split=> //; rewrite e ?hu ?hw; ring.
Qed.
(*@ dependent columns in a group make the number infinite *)
Lemma ex_condition_numbers_infinite_partial_lemma :
  get_condition_numbers svd_of_diagonal [:: unit_row ord0; unit_row (lift ord0 ord0)] = Ok (PInf, PInf) /\
  exists g (u : 'cV[R]_2), List.In g [:: unit_row ord0; unit_row (lift ord0 ord0)] /\ u <> 0 /\ g_x g *m u = 0.
Proof.
  split; first exact: unit_rows_numbers.
  have [h _] := condition_numbers_infinite_partial_lemma svd_of_diagonal_ok unit_rows_numbers.
  exact/h.
Qed.

(*@ C102.  The wrapper get_ic returns the criterion of the name and refuses all other names. *)
Lemma get_ic_names_lemma :
  forall p q (gs : seq (group p q)) pr tol marginalized beta gamma,
  get_ic "IC_vaida2005aic" gs pr tol marginalized beta gamma = lme_vaida_aic gs pr tol marginalized beta gamma /\
  get_ic "IC_jones2010bic" gs pr tol marginalized beta gamma = lme_jones_bic gs pr tol beta gamma /\
  forall ic, ic <> "IC_vaida2005aic"%string -> ic <> "IC_jones2010bic"%string ->
    get_ic ic gs pr tol marginalized beta gamma = Err ValueError.
Proof.
  move=> p q gs pr tol m beta gamma; split; [by []|split; [by []|]] => ic h1 h2.
  by rewrite /get_ic; case: String.eqb_spec => // _; case: String.eqb_spec.
Qed.
(*@ the name the models use for the same criterion is refused *)
Lemma ex_get_ic_names_lemma :
  forall p q (gs : seq (group p q)) pr tol marginalized beta gamma,
  get_ic "vaida_aic" gs pr tol marginalized beta gamma = Err ValueError.
Proof. by []. Qed.
