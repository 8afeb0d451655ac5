(** Elementary facts about [Base.Vec]. *)
From Coq Require Import Lra Psatz Permutation.
From Verif.Base Require Import Py Vec.
Open Scope R_scope.

(** boolean comparisons *)
Lemma rltb_true a b : rltb a b = true <-> a < b.
Proof. unfold rltb; destruct (Rlt_dec a b); split; intro; try lra; congruence. Qed.
Lemma rltb_false a b : rltb a b = false <-> b <= a.
Proof. unfold rltb; destruct (Rlt_dec a b); split; intro; try lra; congruence. Qed.
Lemma rleb_true a b : rleb a b = true <-> a <= b.
Proof. unfold rleb; destruct (Rle_dec a b); split; intro; try lra; congruence. Qed.
Lemma rleb_false a b : rleb a b = false <-> b < a.
Proof. unfold rleb; destruct (Rle_dec a b); split; intro; try lra; congruence. Qed.
Lemma reqb_true a b : reqb a b = true <-> a = b.
Proof. unfold reqb; destruct (Req_EM_T a b); split; intro; congruence. Qed.
Lemma reqb_false a b : reqb a b = false <-> a <> b.
Proof. unfold reqb; destruct (Req_EM_T a b); split; intro; congruence. Qed.
Lemma nonzero_true a : nonzero a = true <-> a <> 0.
Proof. unfold nonzero; rewrite negb_true_iff; apply reqb_false. Qed.
Lemma nonzero_false a : nonzero a = false <-> a = 0.
Proof. unfold nonzero; rewrite negb_false_iff; apply reqb_true. Qed.

(** destruct one real comparison appearing in the goal or a hypothesis *)
Ltac rdec1 :=
  match goal with
  | |- context [rltb ?a ?b] => unfold rltb; destruct (Rlt_dec a b)
  | |- context [rleb ?a ?b] => unfold rleb; destruct (Rle_dec a b)
  | |- context [reqb ?a ?b] => unfold reqb; destruct (Req_EM_T a b)
  | |- context [Rlt_dec ?a ?b] => destruct (Rlt_dec a b)
  | |- context [Rle_dec ?a ?b] => destruct (Rle_dec a b)
  | |- context [Req_EM_T ?a ?b] => destruct (Req_EM_T a b)
  end.

Ltac rabs1 :=
  match goal with
  | |- context [Rabs ?a] => unfold Rabs; destruct (Rcase_abs a)
  | H : context [Rabs ?a] |- _ => unfold Rabs in H; destruct (Rcase_abs a)
  end.

Lemma pow2_gt_0 r : r <> 0 -> 0 < r ^ 2.
Proof. intros H. rewrite <- Rsqr_pow2. apply Rsqr_pos_lt; auto. Qed.

(** lengths *)
Lemma map2_length {A B C} (f : A -> B -> C) xs ys :
  length (map2 f xs ys) = Nat.min (length xs) (length ys).
Proof. revert ys; induction xs as [|x xs IH]; intros [|y ys]; simpl; auto. Qed.
Lemma map2_length_eq {A B C} (f : A -> B -> C) xs ys :
  length xs = length ys -> length (map2 f xs ys) = length ys.
Proof. intros H; rewrite map2_length, H; apply Nat.min_id. Qed.
Lemma vsub_length x y : length x = length y -> length (vsub x y) = length y.
Proof. apply map2_length_eq. Qed.
Lemma vadd_length x y : length x = length y -> length (vadd x y) = length y.
Proof. apply map2_length_eq. Qed.
Lemma vmul_length x y : length x = length y -> length (vmul x y) = length y.
Proof. apply map2_length_eq. Qed.
Lemma vscale_length c x : length (vscale c x) = length x.
Proof. apply map_length. Qed.
Lemma vneg_length x : length (vneg x) = length x.
Proof. apply map_length. Qed.
Lemma vabs_length x : length (vabs x) = length x.
Proof. apply map_length. Qed.
Lemma zeros_length n : length (zeros n) = n.
Proof. apply repeat_length. Qed.
Lemma ones_length n : length (ones n) = n.
Proof. apply repeat_length. Qed.
Lemma mask_assign_length {A} m (vals x : list A) : length (mask_assign m vals x) = length x.
Proof.
  revert vals x; induction m as [|b m IH]; intros vals [|a x]; simpl; auto.
  destruct b; [destruct vals|]; simpl; rewrite IH; auto.
Qed.
Lemma mask_map_length {A} m (f : A -> A) x : length (mask_map m f x) = length x.
Proof. revert x; induction m as [|b m IH]; intros [|a x]; simpl; auto. Qed.
Lemma mapi_from_length {A B} (f : nat -> A -> B) x i : length (mapi_from i f x) = length x.
Proof. revert i; induction x as [|a x IH]; intros i; simpl; auto. Qed.
Lemma mapi_length {A B} (f : nat -> A -> B) x : length (mapi f x) = length x.
Proof. apply mapi_from_length. Qed.
Lemma mapi_from_nth {A B} (f : nat -> A -> B) x i k d d' :
  (k < length x)%nat -> nth k (mapi_from i f x) d = f (i + k)%nat (nth k x d').
Proof.
  revert i k; induction x as [|a x IH]; intros i [|k] Hk; simpl in *; try lia.
  - f_equal; lia.
  - rewrite IH by lia. f_equal; lia.
Qed.
Lemma mapi_nth {A B} (f : nat -> A -> B) x k d d' :
  (k < length x)%nat -> nth k (mapi f x) d = f k (nth k x d').
Proof. intros H. unfold mapi. rewrite (mapi_from_nth f x 0 k d d' H). reflexivity. Qed.
Lemma mapi_from_ext {A B} (f g : nat -> A -> B) x i :
  (forall k a, (i <= k < i + length x)%nat -> f k a = g k a) -> mapi_from i f x = mapi_from i g x.
Proof.
  revert i; induction x as [|a x IH]; intros i H; simpl; auto.
  f_equal. { apply H; simpl; lia. } apply IH; intros; apply H; simpl in *; lia.
Qed.
Lemma map2_nth {A B C} (f : A -> B -> C) xs ys k dx dy d :
  (k < length xs)%nat -> (k < length ys)%nat ->
  nth k (map2 f xs ys) d = f (nth k xs dx) (nth k ys dy).
Proof.
  revert ys k; induction xs as [|x xs IH]; intros [|y ys] [|k] H1 H2; simpl in *; try lia; auto.
  apply IH; lia.
Qed.

Lemma map2_map_l {A A' B C} (f : A' -> B -> C) (g : A -> A') xs ys :
  map2 f (map g xs) ys = map2 (fun x y => f (g x) y) xs ys.
Proof. revert ys; induction xs as [|x xs IH]; intros [|y ys]; simpl; f_equal; auto. Qed.
Lemma map2_map_r {A B B' C} (f : A -> B' -> C) (g : B -> B') xs ys :
  map2 f xs (map g ys) = map2 (fun x y => f x (g y)) xs ys.
Proof. revert ys; induction xs as [|x xs IH]; intros [|y ys]; simpl; f_equal; auto. Qed.
Lemma map_map2 {A B C D} (g : C -> D) (f : A -> B -> C) xs ys :
  map g (map2 f xs ys) = map2 (fun x y => g (f x y)) xs ys.
Proof. revert ys; induction xs as [|x xs IH]; intros [|y ys]; simpl; f_equal; auto. Qed.
Lemma map2_repeat_l {A B C} (f : A -> B -> C) a ys :
  map2 f (repeat a (length ys)) ys = map (f a) ys.
Proof. induction ys as [|y ys IH]; simpl; f_equal; auto. Qed.
Lemma map2_ext {A B C} (f g : A -> B -> C) xs ys :
  (forall x y, f x y = g x y) -> map2 f xs ys = map2 g xs ys.
Proof. intros H; revert ys; induction xs as [|x xs IH]; intros [|y ys]; simpl; f_equal; auto. Qed.
Lemma map2_same {A C} (f : A -> A -> C) xs : map2 f xs xs = map (fun x => f x x) xs.
Proof. induction xs as [|x xs IH]; simpl; f_equal; auto. Qed.

(** Induction over two or three lists of the same length *)
Lemma list_ind2 {A B} (P : list A -> list B -> Prop) :
  P [] [] -> (forall a b x y, length x = length y -> P x y -> P (a :: x) (b :: y)) ->
  forall x y, length x = length y -> P x y.
Proof.
  intros H0 HS x; induction x as [|a x IH]; intros [|b y] H; simpl in H; try discriminate; auto.
Qed.
Lemma list_ind3 {A B C} (P : list A -> list B -> list C -> Prop) :
  P [] [] [] ->
  (forall a b c x y z, length x = length y -> length z = length y -> P x y z ->
     P (a :: x) (b :: y) (c :: z)) ->
  forall x y z, length x = length y -> length z = length y -> P x y z.
Proof.
  intros H0 HS x; induction x as [|a x IH]; intros [|b y] [|c z] H1 H2; simpl in *;
    try discriminate; auto.
Qed.

(** sums and products *)
Lemma vdot_nil_r x : vdot x [] = 0.
Proof. unfold vdot, vmul. destruct x; reflexivity. Qed.
Lemma vdot_cons a b x y : vdot (a :: x) (b :: y) = a * b + vdot x y.
Proof. reflexivity. Qed.
Lemma sqnorm_cons a x : sqnorm (a :: x) = a * a + sqnorm x.
Proof. reflexivity. Qed.
Lemma vdot_comm x y : vdot x y = vdot y x.
Proof.
  revert y; induction x as [|a x IH]; intros [|b y]; try reflexivity.
  rewrite !vdot_cons, IH. lra.
Qed.
Lemma vdot_vadd_l x y z : length x = length y -> vdot (vadd x y) z = vdot x z + vdot y z.
Proof.
  intros H; revert z; pattern x, y; apply list_ind2; auto; clear.
  - intros z. unfold vadd, vdot, vmul; simpl. lra.
  - intros a b x y H IH [|c z].
    + rewrite !vdot_nil_r; lra.
    + change (vadd (a :: x) (b :: y)) with ((a + b) :: vadd x y).
      rewrite !vdot_cons, IH. lra.
Qed.
Lemma vdot_vsub_l x y z : length x = length y -> vdot (vsub x y) z = vdot x z - vdot y z.
Proof.
  intros H; revert z; pattern x, y; apply list_ind2; auto; clear.
  - intros z. unfold vsub, vdot, vmul; simpl. lra.
  - intros a b x y H IH [|c z].
    + rewrite !vdot_nil_r; lra.
    + change (vsub (a :: x) (b :: y)) with ((a - b) :: vsub x y).
      rewrite !vdot_cons, IH. lra.
Qed.
Lemma vdot_vscale_l c x z : vdot (vscale c x) z = c * vdot x z.
Proof.
  revert z; induction x as [|a x IH]; intros [|b z];
    try (unfold vdot, vmul; simpl; lra).
  change (vscale c (a :: x)) with (c * a :: vscale c x). rewrite !vdot_cons, IH. lra.
Qed.
Lemma vdot_vneg_l x z : vdot (vneg x) z = - vdot x z.
Proof.
  revert z; induction x as [|a x IH]; intros [|b z];
    try (unfold vdot, vmul; simpl; lra).
  change (vneg (a :: x)) with (- a :: vneg x). rewrite !vdot_cons, IH. lra.
Qed.
Lemma vdot_vadd_r x y z : length x = length y -> vdot z (vadd x y) = vdot z x + vdot z y.
Proof. intros; rewrite !(vdot_comm z); apply vdot_vadd_l; auto. Qed.
Lemma vdot_vsub_r x y z : length x = length y -> vdot z (vsub x y) = vdot z x - vdot z y.
Proof. intros; rewrite !(vdot_comm z); apply vdot_vsub_l; auto. Qed.
Lemma vdot_vscale_r c x z : vdot z (vscale c x) = c * vdot z x.
Proof. rewrite !(vdot_comm z); apply vdot_vscale_l. Qed.
Lemma vdot_vneg_r x z : vdot z (vneg x) = - vdot z x.
Proof. rewrite !(vdot_comm z); apply vdot_vneg_l. Qed.
Lemma vdot_zeros_l n z : vdot (zeros n) z = 0.
Proof.
  revert z; induction n as [|n IH]; intros [|b z]; try reflexivity.
  change (zeros (S n)) with (0 :: zeros n). rewrite vdot_cons, IH. lra.
Qed.
Lemma sqnorm_nonneg x : 0 <= sqnorm x.
Proof.
  induction x as [|a x IH]; [unfold sqnorm, vdot, vmul; simpl; lra|].
  rewrite sqnorm_cons. nra.
Qed.
Lemma norm_nonneg x : 0 <= norm x.
Proof. apply sqrt_pos. Qed.
Lemma norm_sq x : norm x ^ 2 = sqnorm x.
Proof.
  unfold norm. rewrite <- Rsqr_pow2. apply Rsqr_sqrt. apply sqnorm_nonneg.
Qed.
Lemma sqnorm_vadd x y : length x = length y ->
  sqnorm (vadd x y) = sqnorm x + 2 * vdot x y + sqnorm y.
Proof.
  intros H. unfold sqnorm. rewrite vdot_vadd_l, !vdot_vadd_r by auto.
  rewrite (vdot_comm y x). lra.
Qed.
Lemma sqnorm_vsub x y : length x = length y ->
  sqnorm (vsub x y) = sqnorm x - 2 * vdot x y + sqnorm y.
Proof.
  intros H. unfold sqnorm. rewrite vdot_vsub_l, !vdot_vsub_r by auto.
  rewrite (vdot_comm y x). lra.
Qed.
Lemma sqnorm_vscale c x : sqnorm (vscale c x) = c ^ 2 * sqnorm x.
Proof. unfold sqnorm. rewrite vdot_vscale_l, vdot_vscale_r. lra. Qed.
Lemma sqnorm_vsub_comm x y : length x = length y -> sqnorm (vsub x y) = sqnorm (vsub y x).
Proof. intros H. rewrite !sqnorm_vsub by auto. rewrite (vdot_comm y x). lra. Qed.
Lemma vsub_self x : vsub x x = zeros (length x).
Proof.
  induction x as [|a x IH]; simpl; auto.
  change (vsub (a :: x) (a :: x)) with ((a - a) :: vsub x x).
  rewrite IH. change (zeros (S (length x))) with (0 :: zeros (length x)). f_equal. lra.
Qed.
Lemma sqnorm_zeros n : sqnorm (zeros n) = 0.
Proof. unfold sqnorm. apply vdot_zeros_l. Qed.
Lemma sqnorm_zero_iff x : sqnorm x = 0 <-> x = zeros (length x).
Proof.
  split.
  - induction x as [|a x IH]; intros H; simpl; auto.
    rewrite sqnorm_cons in H. pose proof (sqnorm_nonneg x).
    change (zeros (S (length x))) with (0 :: zeros (length x)).
    assert (0 <= a * a) by nra.
    f_equal; [nra | apply IH; lra].
  - intros ->. rewrite ?repeat_length. unfold zeros. apply sqnorm_zeros.
Qed.
Lemma vsub_zero_eq x y : length x = length y -> sqnorm (vsub x y) = 0 -> x = y.
Proof.
  intros H; pattern x, y; apply list_ind2; auto; clear.
  intros a b x y H IH E. change (vsub (a :: x) (b :: y)) with ((a - b) :: vsub x y) in E.
  rewrite sqnorm_cons in E. pose proof (sqnorm_nonneg (vsub x y)).
  pose proof (Rle_0_sqr (a - b)) as K; unfold Rsqr in K.
  f_equal; [nra | apply IH; lra].
Qed.
(** Cauchy-Schwarz *)
Lemma cauchy_schwarz x y : vdot x y ^ 2 <= sqnorm x * sqnorm y.
Proof.
  revert y; induction x as [|a x IH]; intros y.
  { replace (vdot [] y) with 0 by reflexivity. replace (sqnorm []) with 0 by reflexivity. lra. }
  destruct y as [|b y].
  { rewrite vdot_nil_r. replace (sqnorm []) with 0 by reflexivity. lra. }
  rewrite vdot_cons, !sqnorm_cons.
  specialize (IH y). pose proof (sqnorm_nonneg x). pose proof (sqnorm_nonneg y).
  assert (K : 2 * a * b * vdot x y <= a ^ 2 * sqnorm y + b ^ 2 * sqnorm x).
  { pose proof (sqnorm_nonneg y) as Hy. destruct (Req_dec (sqnorm y) 0) as [E|E].
    - assert (vdot x y = 0) by nra. nra.
    - assert (0 < sqnorm y) by lra.
      pose proof (pow2_ge_0 (a * sqnorm y - b * vdot x y)) as Hsq.
      assert (0 <= sqnorm y * (a ^ 2 * sqnorm y + b ^ 2 * sqnorm x - 2 * a * b * vdot x y)).
      { replace (sqnorm y * (a ^ 2 * sqnorm y + b ^ 2 * sqnorm x - 2 * a * b * vdot x y))
          with ((a * sqnorm y - b * vdot x y) ^ 2
                + b ^ 2 * (sqnorm x * sqnorm y - vdot x y ^ 2)) by ring.
        pose proof (pow2_ge_0 b). nra. }
      nra. }
  nra.
Qed.

(** matrices *)
Lemma mv_length a x : length (mv a x) = length a.
Proof. apply map_length. Qed.
Lemma tmv_length p a r :
  (forall row, In row a -> length row = p) -> length (tmv p a r) = p.
Proof.
  revert r; induction a as [|row a IH]; intros [|c r] H; simpl; try apply zeros_length.
  rewrite vadd_length; rewrite ?vscale_length; rewrite IH; auto.
  - intros; apply H; right; auto.
  - apply H; left; auto.
  - intros; apply H; right; auto.
Qed.
(** <a x, r> = <x, a' r> *)
Lemma tmv_adjoint p a r x :
  (forall row, In row a -> length row = p) -> length r = length a ->
  vdot (tmv p a r) x = vdot r (mv a x).
Proof.
  revert r; induction a as [|row a IH]; intros [|c r] H HL; simpl in *; try discriminate.
  - rewrite vdot_zeros_l. unfold vdot, vmul. reflexivity.
  - rewrite vdot_cons. rewrite vdot_vadd_l.
    + rewrite vdot_vscale_l, IH; auto.
    + rewrite vscale_length, tmv_length; auto.
Qed.
Lemma mv_vadd p a x y :
  (forall row, In row a -> length row = p) -> length x = p -> length y = p ->
  mv a (vadd x y) = vadd (mv a x) (mv a y).
Proof.
  intros H Hx Hy; induction a as [|row a IH]; simpl; auto.
  change (vadd (vdot row x :: mv a x) (vdot row y :: mv a y))
    with ((vdot row x + vdot row y) :: vadd (mv a x) (mv a y)).
  f_equal; [apply vdot_vadd_r; lia | apply IH; intros; apply H; right; auto].
Qed.
Lemma mv_vsub a x y : length x = length y ->
  mv a (vsub x y) = vsub (mv a x) (mv a y).
Proof.
  intros Hx; induction a as [|row a IH]; simpl; auto.
  change (vsub (vdot row x :: mv a x) (vdot row y :: mv a y))
    with ((vdot row x - vdot row y) :: vsub (mv a x) (mv a y)).
  f_equal; auto. apply vdot_vsub_r; lia.
Qed.
Lemma mv_vscale a c x : mv a (vscale c x) = vscale c (mv a x).
Proof.
  induction a as [|row a IH]; simpl; auto. f_equal; auto. apply vdot_vscale_r.
Qed.

(** vectors that agree against every test vector are equal *)
Lemma vdot_ext x y : length x = length y ->
  (forall d, length d = length x -> vdot x d = vdot y d) -> x = y.
Proof.
  intros HL H. apply vsub_zero_eq; auto.
  unfold sqnorm. rewrite vdot_vsub_l by auto.
  rewrite H; [lra|]. rewrite vsub_length; auto.
Qed.
