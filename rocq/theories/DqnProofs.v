From Coq Require Import List Arith ZArith Lia Reals Bool Lra Psatz Permutation.
From Verif Require Import Common DqnModel DqnSpec UtilProofs.
Import ListNotations.

Lemma clip_clamp : forall x lo hi, (lo <= hi)%R -> clip x lo hi = clamp lo hi x.
Proof.
  intros. unfold clip, clamp, Rmin, Rmax. destruct (Rle_dec x lo), (Rlt_dec x lo), (Rlt_dec hi x); try lra;
    match goal with |- context [Rle_dec ?a ?b] => destruct (Rle_dec a b) end; lra.
Qed.
Lemma clip_bounds : forall x lo hi, (lo <= hi)%R -> (lo <= clip x lo hi <= hi)%R.
Proof. intros. unfold clip, Rmin, Rmax. destruct (Rle_dec x lo); match goal with |- context [Rle_dec ?a ?b] => destruct (Rle_dec a b) end; lra. Qed.

Lemma floor_bounds : forall x, (IZR (floorZ x) <= x < IZR (floorZ x) + 1)%R.
Proof. apply Int_part_bounds. Qed.
Lemma ceil_bounds : forall x, (IZR (ceilZ x) - 1 < x <= IZR (ceilZ x))%R.
Proof. intros. unfold ceilZ. rewrite opp_IZR. pose proof (Int_part_bounds (- x)). lra. Qed.

Lemma pyindex_nat : forall n k, k < n -> pyindex n (Z.of_nat k) = Some k.
Proof.
  intros n k H. unfold pyindex. destruct (Z.leb_spec 0 (Z.of_nat k)); [|lia]. destruct (Z.ltb_spec (Z.of_nat k) (Z.of_nat n)); [|lia]. rewrite Nat2Z.id. reflexivity.
Qed.

Section Proj.
Variables (n : nat) (vmin vmax : R).
Hypothesis n2 : 2 <= n.
Hypothesis vlt : (vmin < vmax)%R.

Lemma INR_n : (1 <= INR n - 1)%R.
Proof. assert (H : (INR 2 <= INR n)%R) by (apply le_INR; lia). change (INR 2) with 2%R in H. lra. Qed.
Lemma delta_pos : (0 < delta n vmin vmax)%R.
Proof. unfold delta. pose proof INR_n. apply Rdiv_lt_0_compat; lra. Qed.
Lemma atom_eq : forall i, (vmin + INR i * delta n vmin vmax)%R = atom n vmin vmax i.
Proof. intros. unfold atom, delta. rewrite minus_INR by lia. reflexivity. Qed.

Definition bof (reward gamma z : R) : R := ((clip (reward + gamma * z) vmin vmax - vmin) / delta n vmin vmax)%R.
Lemma bof_bounds : forall r g z, (0 <= bof r g z <= INR (n - 1))%R.
Proof.
  intros. unfold bof. pose proof delta_pos. pose proof (clip_bounds (r + g * z) vmin vmax ltac:(lra)). split.
  - apply Rmult_le_pos; [lra|]. apply Rlt_le, Rinv_0_lt_compat. auto.
  - apply Rmult_le_reg_r with (delta n vmin vmax); auto. unfold Rdiv at 1. rewrite Rmult_assoc, Rinv_l, Rmult_1_r by lra.
    unfold delta. rewrite minus_INR by lia. pose proof INR_n. simpl INR. replace ((INR n - 1) * ((vmax - vmin) / (INR n - 1)))%R with (vmax - vmin)%R by (field; lra). lra.
Qed.

Lemma neighbours : forall b, (0 <= b <= INR (n - 1))%R ->
  let l := floorZ b in let u := ceilZ b in
  let l1 := if (0 <? u)%Z && (l =? u)%Z then (l - 1)%Z else l in
  let u1 := if (l1 <? Z.of_nat n - 1)%Z && (l1 =? u)%Z then (u + 1)%Z else u in
  exists k, S k < n /\ l1 = Z.of_nat k /\ u1 = Z.of_nat (S k) /\ (INR k <= b <= INR k + 1)%R.
Proof.
  intros b Hb l u l1 u1. pose proof (floor_bounds b) as F. pose proof (ceil_bounds b) as C. fold l in F. fold u in C.
  assert (BN : (b <= IZR (Z.of_nat n - 1))%R) by (rewrite INR_IZR_INZ in Hb; replace (Z.of_nat n - 1)%Z with (Z.of_nat (n - 1)) by lia; lra).
  assert (L0 : (-1 < l)%Z) by (apply lt_IZR; lra). assert (LU : (l <= u)%Z) by (apply le_IZR; lra).
  assert (UL : (u < l + 2)%Z) by (apply lt_IZR; rewrite plus_IZR; lra).
  assert (UN : (u < Z.of_nat n)%Z) by (apply lt_IZR; replace (IZR (Z.of_nat n)) with (IZR (Z.of_nat n - 1) + 1)%R by (rewrite minus_IZR; lra); lra).
  assert (FIN : forall k : Z, (0 <= k)%Z -> (k + 1 < Z.of_nat n)%Z -> l1 = k -> u1 = (k + 1)%Z -> (IZR k <= b <= IZR k + 1)%R ->
     exists k, S k < n /\ l1 = Z.of_nat k /\ u1 = Z.of_nat (S k) /\ (INR k <= b <= INR k + 1)%R).
  { intros k K1 K2 E1 E2 E3. exists (Z.to_nat k). split; [lia|]. split; [lia|]. split; [lia|]. rewrite INR_IZR_INZ, Z2Nat.id by lia. auto. }
  destruct (Z.eq_dec l u) as [E|E].
  - assert (BU : b = IZR u) by (rewrite E in F; lra).
    destruct (Z.ltb_spec 0 u) as [U0|U0].
    + assert (E1 : l1 = (u - 1)%Z) by (unfold l1; destruct (Z.ltb_spec 0 u), (Z.eqb_spec l u); simpl; lia).
      assert (E2 : u1 = u) by (unfold u1; rewrite E1; destruct (Z.eqb_spec (u - 1) u); [lia|]; rewrite andb_false_r; auto).
      apply (FIN (u - 1)%Z); try lia. rewrite minus_IZR. lra.
    + assert (u = 0)%Z by lia.
      assert (E1 : l1 = 0%Z) by (unfold l1; destruct (Z.ltb_spec 0 u), (Z.eqb_spec l u); simpl; lia).
      assert (E2 : u1 = 1%Z) by (unfold u1; rewrite E1; destruct (Z.ltb_spec 0 (Z.of_nat n - 1)), (Z.eqb_spec 0 u); simpl; lia).
      apply (FIN 0%Z); try lia. rewrite BU, H. lra.
  - assert (E1 : l1 = l) by (unfold l1; destruct (Z.eqb_spec l u); [lia|]; rewrite andb_false_r; auto).
    assert (E2 : u1 = u) by (unfold u1; rewrite E1; destruct (Z.eqb_spec l u); [lia|]; rewrite andb_false_r; auto).
    apply (FIN l); try lia. lra.
Qed.

Definition hat (b : R) (k : nat) : R := Rmax 0 (1 - Rabs (b - INR k)).

Lemma hat_far : forall b k, (b <= INR k - 1 \/ INR k + 1 <= b)%R -> hat b k = 0%R.
Proof. intros b k H. unfold hat. apply Rmax_left. unfold Rabs. destruct (Rcase_abs _); lra. Qed.

Lemma sum_setnth : forall (g : nat -> R) k0 m i x, i < length m ->
  rsum (map (fun k => g k * nth (k - k0) (setnth m i x) 0)%R (seq k0 (length m))) = (rsum (map (fun k => g k * nth (k - k0) m 0) (seq k0 (length m))) + g (k0 + i)%nat * (x - nth i m 0))%R.
Proof.
  intros g k0 m i x Hi.
  assert (SP : seq k0 (length m) = seq k0 i ++ (k0 + i) :: seq (S (k0 + i)) (length m - S i)).
  { replace (length m) with (i + S (length m - S i)) at 1 by lia. rewrite seq_app. reflexivity. }
  rewrite SP, !map_app, !rsum_app. cbn [map rsum]. replace (k0 + i - k0) with i by lia. rewrite nth_setnth_eq by auto.
  rewrite (rsum_map_ext _ (fun k => g k * nth (k - k0) (setnth m i x) 0)%R (fun k => g k * nth (k - k0) m 0)%R (seq k0 i)).
  rewrite (rsum_map_ext _ (fun k => g k * nth (k - k0) (setnth m i x) 0)%R (fun k => g k * nth (k - k0) m 0)%R (seq (S (k0 + i)) _)).
  - ring.
  - intros j Hj. apply in_seq in Hj. rewrite nth_setnth_neq by lia. reflexivity.
  - intros j Hj. apply in_seq in Hj. rewrite nth_setnth_neq by lia. reflexivity.
Qed.

Lemma project_atom_spec : forall r g z p m, length m = n -> let b := bof r g z in
  exists m', project_atom n vmin vmax r g z p m = Some m' /\ length m' = n /\
    (forall k, k < n -> nth k m' 0%R = (nth k m 0 + p * hat b k)%R) /\
    sum n (fun k => nth k m' 0%R) = (sum n (fun k => nth k m 0) + p)%R /\
    sum n (fun k => INR k * nth k m' 0)%R = (sum n (fun k => INR k * nth k m 0) + p * b)%R.
Proof.
  intros r g z p m L b. unfold project_atom. change ((clip (r + g * z) vmin vmax - vmin) / delta n vmin vmax)%R with b.
  destruct (neighbours b (bof_bounds r g z)) as (k & Hk & E1 & E2 & B). cbv zeta in E1, E2. cbv zeta. rewrite E2, E1.
  unfold inc. rewrite pyindex_nat by lia. rewrite setnth_length, pyindex_nat by lia.
  eexists. split; [reflexivity|]. split; [rewrite !setnth_length; auto|]. rewrite <- !INR_IZR_INZ, S_INR.
  set (x1 := (nth k m 0 + p * (INR k + 1 - b))%R).
  rewrite (nth_setnth_neq _ m k (S k)) by lia. set (x2 := (nth (S k) m 0 + p * (b - INR k))%R).
  assert (SM : forall gg, rsum (map (fun j => gg j * nth j (setnth (setnth m k x1) (S k) x2) 0)%R (seq 0 n)) =
     (rsum (map (fun j => gg j * nth j m 0) (seq 0 n)) + gg k * (p * (INR k + 1 - b)) + gg (S k) * (p * (b - INR k)))%R).
  { intros gg. pose proof (sum_setnth gg 0 (setnth m k x1) (S k) x2) as A. rewrite setnth_length in A. specialize (A ltac:(lia)).
    pose proof (sum_setnth gg 0 m k x1 ltac:(lia)) as A2. rewrite L in A, A2. cbn [Nat.add] in A, A2.
    rewrite (rsum_map_ext _ (fun k0 => gg k0 * nth (k0 - 0) (setnth (setnth m k x1) (S k) x2) 0)%R (fun j => gg j * nth j (setnth (setnth m k x1) (S k) x2) 0)%R) in A by (intros; rewrite Nat.sub_0_r; reflexivity).
    rewrite A. rewrite A2. rewrite (rsum_map_ext _ (fun k0 => gg k0 * nth (k0 - 0) m 0)%R (fun j => gg j * nth j m 0)%R) by (intros; rewrite Nat.sub_0_r; reflexivity).
    rewrite nth_setnth_neq by lia. unfold x1, x2. ring. }
  split; [|split].
  - intros j Hj. destruct (Nat.eq_dec j (S k)) as [->|N1].
    + rewrite nth_setnth_eq by (rewrite setnth_length; lia). unfold x2. f_equal. f_equal. unfold hat. rewrite S_INR.
      rewrite Rabs_left1 by lra. rewrite Rmax_right by lra. lra.
    + rewrite nth_setnth_neq by auto. destruct (Nat.eq_dec j k) as [->|N2].
      * rewrite nth_setnth_eq by lia. unfold x1. f_equal. f_equal. unfold hat. rewrite Rabs_pos_eq by lra. rewrite Rmax_right by lra. lra.
      * rewrite nth_setnth_neq by auto. rewrite hat_far; [lra|]. destruct (Nat.lt_ge_cases j k) as [Q|Q].
        -- right. assert (INR (S j) <= INR k)%R by (apply le_INR; lia). rewrite S_INR in H. lra.
        -- left. assert (INR (S (S k)) <= INR j)%R by (apply le_INR; lia). rewrite !S_INR in H. lra.
  - unfold sum. rewrite (rsum_map_ext _ _ (fun j => 1 * nth j (setnth (setnth m k x1) (S k) x2) 0)%R) by (intros; ring).
    rewrite (SM (fun _ => 1%R)). rewrite (rsum_map_ext _ (fun j => 1 * nth j m 0)%R (fun j => nth j m 0%R)) by (intros; ring). ring.
  - unfold sum. rewrite (SM INR). rewrite S_INR. ring.
Qed.

Lemma project_loop_spec : forall r g zp m, length m = n ->
  exists m', project_loop n vmin vmax r g zp m = Some m' /\ length m' = n /\
    (forall k, k < n -> nth k m' 0%R = (nth k m 0 + rsum (map (fun x => snd x * hat (bof r g (fst x)) k) zp))%R) /\
    sum n (fun k => nth k m' 0%R) = (sum n (fun k => nth k m 0) + rsum (map snd zp))%R /\
    sum n (fun k => INR k * nth k m' 0)%R = (sum n (fun k => INR k * nth k m 0) + rsum (map (fun x => snd x * bof r g (fst x)) zp))%R.
Proof.
  intros r g. induction zp as [|[z p] zp IH]; intros m L; cbn [project_loop map rsum fst snd].
  - exists m. split; auto. split; auto. split; [intros; ring|]. split; ring.
  - destruct (project_atom_spec r g z p m L) as (m1 & -> & L1 & A & B & C). destruct (IH m1 L1) as (m2 & -> & L2 & A2 & B2 & C2).
    exists m2. split; auto. split; auto. split; [|split].
    + intros k Hk. rewrite A2, A by auto. ring.
    + rewrite B2, B. ring.
    + rewrite C2, C. ring.
Qed.

Lemma atoms_spec : forall eps, (0 < eps <= delta n vmin vmax)%R -> atoms n vmin vmax eps = map (atom n vmin vmax) (seq 0 n).
Proof.
  intros eps He. unfold atoms. pose proof delta_pos as D. pose proof INR_n as I.
  assert (E : ceilZ ((vmax + eps - vmin) / delta n vmin vmax) = Z.of_nat n).
  { pose proof (ceil_bounds ((vmax + eps - vmin) / delta n vmin vmax)) as C.
    assert (Q : ((vmax + eps - vmin) / delta n vmin vmax = INR n - 1 + eps / delta n vmin vmax)%R).
    { replace (vmax + eps - vmin)%R with ((INR n - 1) * delta n vmin vmax + eps)%R by (unfold delta; field; lra). field. lra. }
    rewrite Q in *. assert (Q1 : (0 < eps / delta n vmin vmax)%R) by (apply Rdiv_lt_0_compat; lra).
    assert (Q2 : (eps / delta n vmin vmax <= 1)%R) by (apply Rmult_le_reg_r with (delta n vmin vmax); auto; unfold Rdiv; rewrite Rmult_assoc, Rinv_l by lra; lra).
    rewrite INR_IZR_INZ in *. set (c := ceilZ _) in *.
    assert (c < Z.of_nat n + 1)%Z by (apply lt_IZR; rewrite plus_IZR; lra). assert (Z.of_nat n - 1 < c)%Z by (apply lt_IZR; rewrite minus_IZR; lra). lia. }
  rewrite E, Nat2Z.id. apply map_ext. intros i. apply atom_eq.
Qed.

Lemma hat_tri : forall y k, hat ((y - vmin) / delta n vmin vmax) k = tri (delta n vmin vmax) y (atom n vmin vmax k).
Proof.
  intros y k. unfold hat, tri. f_equal. f_equal. pose proof delta_pos as D. rewrite <- atom_eq.
  replace ((y - vmin) / delta n vmin vmax - INR k)%R with ((y - (vmin + INR k * delta n vmin vmax)) * / delta n vmin vmax)%R by (field; lra).
  rewrite Rabs_mult, (Rabs_pos_eq (/ delta n vmin vmax)) by (apply Rlt_le, Rinv_0_lt_compat; auto). reflexivity.
Qed.
End Proj.

(** * maxima *)
Lemma rmaxl_spec : forall l x, is_max (x :: l) (rmaxl x l).
Proof.
  induction l as [|y l IH]; intros x; simpl.
  - split; [simpl; auto|]. intros y [<-|[]]. lra.
  - destruct (IH (Rmax x y)) as [A B]. split.
    + destruct A as [A|A]; [|simpl; auto]. rewrite <- A. unfold Rmax. destruct (Rle_dec x y); simpl; auto.
    + intros z [<-|[<-|I]]; [| |apply B; simpl; auto]; (eapply Rle_trans; [|apply (B (Rmax x y)); simpl; auto]); [apply Rmax_l|apply Rmax_r].
Qed.
Lemma rowmax_spec : forall q, q <> [] -> is_max q (rowmax q).
Proof. intros [|x q] H; [congruence|]. apply rmaxl_spec. Qed.
Lemma rminl_spec : forall l x, is_min (x :: l) (rminl x l).
Proof.
  induction l as [|y l IH]; intros x; simpl.
  - split; [simpl; auto|]. intros y [<-|[]]. lra.
  - destruct (IH (Rmin x y)) as [A B]. split.
    + destruct A as [A|A]; [|simpl; auto]. rewrite <- A. unfold Rmin. destruct (Rle_dec x y); simpl; auto.
    + intros z [<-|[<-|I]]; [| |apply B; simpl; auto]; (eapply Rle_trans; [apply (B (Rmin x y)); simpl; auto|]); [apply Rmin_l|apply Rmin_r].
Qed.
Lemma listmin_spec : forall l, l <> [] -> is_min l (listmin l).
Proof. intros [|x l] H; [congruence|]. apply rminl_spec. Qed.

Lemma max_unique : forall l x y, is_max l x -> is_max l y -> x = y.
Proof. intros l x y [A B] [C D]. apply Rle_antisym; auto. Qed.

Lemma argmaxl_spec : forall l best v i, 
  let k := argmaxl best v i l in
  (k = best /\ forall y, In y l -> (y <= v)%R) \/ (i <= k < i + length l /\ (v < nth (k - i) l 0)%R /\ forall y, In y l -> (y <= nth (k - i) l 0)%R).
Proof.
  induction l as [|y l IH]; intros best v i; simpl.
  - left. split; auto. intros y [].
  - destruct (Rlt_dec v y) as [L|L].
    + destruct (IH i y (S i)) as [[E A]|(B & C & D)].
      * right. cbv zeta in E. rewrite E. split; [lia|]. rewrite Nat.sub_diag. split; auto. intros z [<-|I]; [lra|auto].
      * right. split; [lia|]. set (k := argmaxl i y (S i) l) in *. replace (k - i) with (S (k - S i)) by lia. cbn [nth]. split; [lra|].
        intros z [<-|I]; [lra|auto].
    + destruct (IH best v (S i)) as [[E A]|(B & C & D)].
      * left. split; auto. intros z [<-|I]; [lra|auto].
      * right. split; [lia|]. set (k := argmaxl best v (S i) l) in *. replace (k - i) with (S (k - S i)) by lia. cbn [nth]. split; [lra|].
        intros z [<-|I]; [lra|auto].
Qed.
Lemma argmax_spec : forall q, q <> [] -> argmax q < length q /\ is_max q (nth (argmax q) q 0%R).
Proof.
  intros [|x q] H; [congruence|]. unfold argmax. destruct (argmaxl_spec q 0 x 1) as [[E A]|(B & C & D)].
  - cbv zeta in E. rewrite E. simpl. split; [lia|]. split; [simpl; auto|]. intros y [<-|I]; [lra|auto].
  - set (k := argmaxl 0 x 1 q) in *. split; [simpl; lia|]. replace k with (S (k - 1)) by lia. cbn [nth]. split.
    + right. apply nth_In. lia.
    + intros y [<-|I]; [lra|auto].
Qed.

Lemma map_one : forall q, map (fun x => x * (1 - flag false))%R q = q.
Proof. intros. rewrite <- map_id. apply map_ext. intros. unfold flag. ring. Qed.
Lemma rowmax_zero : forall q, rowmax (map (fun x => x * (1 - flag true))%R q) = 0%R.
Proof.
  intros [|x q]; [reflexivity|]. assert (A := rowmax_spec (map (fun x => x * (1 - flag true))%R (x :: q)) ltac:(discriminate)).
  destruct A as [A _]. apply in_map_iff in A. destruct A as (y & <- & _). unfold flag. ring.
Qed.

(** * target schedules *)
Lemma fold_left_snoc : forall A B (f : A -> B -> A) l x a, fold_left f (l ++ [x]) a = f (fold_left f l a) x.
Proof. intros. rewrite fold_left_app. reflexivity. Qed.

Lemma snapshot_app : forall W (w0 : W) ws x k, k <= length ws -> snapshot w0 (ws ++ [x]) k = snapshot w0 ws k.
Proof. intros W w0 ws x [|k] H; unfold snapshot; cbn [nth]; auto. rewrite app_nth1 by lia. reflexivity. Qed.
Lemma snapshot_last : forall W (w0 : W) ws x, snapshot w0 (ws ++ [x]) (S (length ws)) = x.
Proof. intros. unfold snapshot. cbn [nth]. rewrite app_nth2, Nat.sub_diag by lia. reflexivity. Qed.

Lemma div_succ : forall freq k, 0 < freq ->
  if Nat.eqb ((k + 1) mod freq) 0 then (k + 1) / freq = S (k / freq) /\ freq * S (k / freq) = S k else (k + 1) / freq = k / freq.
Proof.
  intros freq k H. pose proof (Nat.div_mod k freq ltac:(lia)) as D. pose proof (Nat.mod_upper_bound k freq ltac:(lia)) as B.
  pose proof (Nat.div_mod (k + 1) freq ltac:(lia)) as D1. pose proof (Nat.mod_upper_bound (k + 1) freq ltac:(lia)) as B1.
  destruct (Nat.eqb_spec ((k + 1) mod freq) 0) as [E|E].
  - assert ((k + 1) / freq = S (k / freq)) by nia. split; auto. nia.
  - nia.
Qed.
