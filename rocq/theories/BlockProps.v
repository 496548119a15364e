(** C34: covariance blocks. *)
From Verif Require Import Np NpFacts StoreModel StoreFacts BlockModel.
From Coq Require Import ZArith.

Section Facts.
Context {A : Type} (zero : A).

(** Reading a matrix in row-major order *)
Lemma flat_get (a : list (list A)) h w r c : rect a h w -> c < w -> nth_error (List.concat a) (r * w + c) = get2 a r c.
Proof.
  intros [_ H] Hc. rewrite <- (map_id a) at 1. rewrite <- flat_map_concat_map. rewrite Forall_forall in H. rewrite (nth_flat_const (fun x => x) w a H r c Hc). reflexivity.
Qed.
Lemma rect_cols (a : list (list A)) h w : rect a h w -> 0 < h -> n_cols a = w.
Proof. intros [L H] Hh. destruct a as [|r a]; [simpl in L; lia|]. inversion H; subst. reflexivity. Qed.

Lemma mapM_seq {B} (f : nat -> option B) n m : (forall i, i < n -> exists v, f (m + i) = Some v) -> exists l, mapM f (seq m n) = Some l /\ List.length l = n /\ forall i, i < n -> nth_error l i = f (m + i).
Proof.
  revert m. induction n as [|n IH]; intros m H; [exists []; simpl; repeat split; auto; intros; lia|]. cbn [seq mapM]. destruct (H 0 ltac:(lia)) as (v & Hv). rewrite Nat.add_0_r in Hv. rewrite Hv.
  destruct (IH (S m)) as (l & -> & Hl & Hn). { intros i Hi. destruct (H (S i) ltac:(lia)) as (u & Hu). exists u. rewrite <- Hu. f_equal. lia. }
  exists (v :: l). split; auto. split; [simpl; lia|]. intros [|i] Hi; [rewrite Nat.add_0_r; auto|]. simpl. rewrite Hn by lia. f_equal. lia.
Qed.
(** The extracted blocks are the blocks along the diagonal, moved by k blocks. *)
Theorem C34_extract : forall (a : list (list A)) h w n k, rect a h w -> 0 < n ->
  exists blocks, extract_block_diag a n k = Some blocks /\
    List.length blocks = Nat.min ((h - n * Z.to_nat (- k)) / n) ((w - n * Z.to_nat k) / n) /\
    forall b blk, nth_error blocks b = Some blk -> rect blk n n /\
      forall i j, i < n -> j < n -> get2 blk i j = get2 a (b * n + i + n * Z.to_nat (- k)) (b * n + j + n * Z.to_nat k).
Proof.
  intros a h w n k R Hn. unfold extract_block_diag. destruct (Nat.eqb_spec n 0) as [|_]; [lia|]. set (u := Z.to_nat (- k)). set (v := Z.to_nat k).
  destruct (Nat.eq_dec h 0) as [->|Hh].
  { destruct R as [L _]. destruct a; [|discriminate]. exists []. cbn [n_rows n_cols List.length]. assert (D0 : 0 / n = 0) by (apply Nat.div_0_l; lia). rewrite !Nat.sub_0_l, D0.
    destruct (0 <? k)%Z; cbn; rewrite ?D0; (split; [reflexivity|]); (split; [reflexivity|]); intros [|b] blk H; discriminate. }
  rewrite (rect_cols a h w R) by lia. assert (Hr : n_rows a = h) by apply R. rewrite Hr.
  set (nb := Nat.min ((h - n * u) / n) ((w - n * v) / n)).
  assert (B : forall b, b < nb -> b * n + n <= h - n * u /\ b * n + n <= w - n * v).
  { intros b Hb. unfold nb in Hb. pose proof (Nat.mul_div_le (h - n * u) n ltac:(lia)). pose proof (Nat.mul_div_le (w - n * v) n ltac:(lia)). nia. }
  assert (S : exists off, (if (0 <? k)%Z then (n * v, h, w - n * v) else (n * u * w, h - n * u, w)) = (off, if (0 <? k)%Z then h else h - n * u, if (0 <? k)%Z then w - n * v else w) /\ off = n * u * w + n * v /\
     Nat.min ((if (0 <? k)%Z then h else h - n * u) / n) ((if (0 <? k)%Z then w - n * v else w) / n) = nb).
  { destruct (Z.ltb_spec 0 k) as [Hk|Hk].
    - assert (u = 0) by (unfold u; lia). eexists. split; [reflexivity|]. split; [lia|]. unfold nb. do 2 f_equal. lia.
    - assert (v = 0) by (unfold v; lia). eexists. split; [reflexivity|]. split; [lia|]. unfold nb. do 2 f_equal. lia. }
  destruct S as (off & -> & -> & ->). unfold strided.
  assert (E : forall b i j, b < nb -> i < n -> j < n -> nth_error (List.concat a) (n * u * w + n * v + b * (n * w + n * 1) + i * w + j * 1) = get2 a (b * n + i + n * u) (b * n + j + n * v)).
  { intros b i j Hb Hi Hj. destruct (B b Hb). rewrite <- (flat_get a h w) by (auto; lia). f_equal. nia. }
  assert (Row : forall b i, b < nb -> i < n -> exists l, mapM (fun j => nth_error (List.concat a) (n * u * w + n * v + b * (n * w + n * 1) + i * w + j * 1)) (seq 0 n) = Some l /\ List.length l = n /\ forall j, j < n -> nth_error l j = get2 a (b * n + i + n * u) (b * n + j + n * v)).
  { intros b i Hb Hi. destruct (mapM_seq (fun j => nth_error (List.concat a) (n * u * w + n * v + b * (n * w + n * 1) + i * w + j * 1)) n 0) as (l & Hl & L & Hnth).
    - intros j Hj. cbn [Nat.add]. rewrite E by auto. destruct (B b Hb). apply (rect_get a h w); auto; lia.
    - exists l. split; auto. split; auto. intros j Hj. rewrite Hnth by auto. apply E; auto. }
  assert (Blk : forall b, b < nb -> exists m, mapM (fun i => mapM (fun j => nth_error (List.concat a) (n * u * w + n * v + b * (n * w + n * 1) + i * w + j * 1)) (seq 0 n)) (seq 0 n) = Some m /\ rect m n n /\ forall i j, i < n -> j < n -> get2 m i j = get2 a (b * n + i + n * u) (b * n + j + n * v)).
  { intros b Hb. destruct (mapM_seq (fun i => mapM (fun j => nth_error (List.concat a) (n * u * w + n * v + b * (n * w + n * 1) + i * w + j * 1)) (seq 0 n)) n 0) as (m & Hm & L & Hnth).
    - intros i Hi. destruct (Row b i Hb Hi) as (l & Hl & _). exists l. exact Hl.
    - exists m. split; auto. split.
      + split; auto. apply Forall_forall. intros l Hl. apply In_nth_error in Hl. destruct Hl as (i & Hi). assert (Hlt : i < n) by (rewrite <- L; apply nth_error_Some; congruence).
        rewrite Hnth in Hi by auto. destruct (Row b i Hb Hlt) as (l' & Hl' & L' & _). cbn [Nat.add] in Hi. congruence.
      + intros i j Hi Hj. unfold get2 at 1. rewrite Hnth by auto. destruct (Row b i Hb Hi) as (l' & Hl' & _ & Hj'). cbn [Nat.add]. rewrite Hl'. apply Hj'. auto. }
  destruct (mapM_seq (fun b => mapM (fun i => mapM (fun j => nth_error (List.concat a) (n * u * w + n * v + b * (n * w + n * 1) + i * w + j * 1)) (seq 0 n)) (seq 0 n)) nb 0) as (blocks & Hb & L & Hnth).
  - intros b Hb. destruct (Blk b Hb) as (m & Hm & _). exists m. exact Hm.
  - exists blocks. split; [exact Hb|]. split; auto. intros b blk Hbk. assert (Hlt : b < nb) by (rewrite <- L; apply nth_error_Some; intros X0; pose proof (eq_trans (eq_sym Hbk) X0); discriminate).
    destruct (Blk b Hlt) as (m & Hm & Rm & Hg). assert (X : Some m = Some blk) by (rewrite <- Hm, <- Hbk; symmetry; exact (Hnth b Hlt)). injection X as ->. auto.
Qed.

(** ** Assembly *)
Lemma nth_indexed {B} (l : list B) i : nth_error (combine (seq 0 (List.length l)) l) i = option_map (fun x => (i, x)) (nth_error l i).
Proof.
  assert (G : forall k, nth_error (combine (seq k (List.length l)) l) i = option_map (fun x => (k + i, x)) (nth_error l i)); [|exact (G 0)].
  revert i. induction l as [|x l IH]; intros [|i] k; simpl; auto; [now rewrite Nat.add_0_r|]. rewrite IH. destruct (nth_error l i); simpl; auto. now rewrite Nat.add_succ_r.
Qed.
Lemma assign_get (out : list (list A)) r c blk x y : get2 (assign out r c blk) x y =
  match get2 out x y with None => None | Some v => Some (match (if (r <=? x) && (c <=? y) then get2 blk (x - r) (y - c) else None) with Some w => w | None => v end) end.
Proof.
  assert (E : get2 (assign out r c blk) x y = match nth_error (assign out r c blk) x with Some row => nth_error row y | None => None end) by reflexivity. rewrite E. unfold assign at 1. rewrite nth_error_map, nth_indexed.
  assert (E' : get2 out x y = match nth_error out x with Some row => nth_error row y | None => None end) by reflexivity. rewrite E'.
  destruct (nth_error out x) as [row|]; cbn [option_map]; auto. cbn [fst snd]. rewrite nth_error_map, nth_indexed. destruct (nth_error row y) as [v|]; reflexivity.
Qed.
Lemma assign_rect (out : list (list A)) r c blk h w : rect out h w -> rect (assign out r c blk) h w.
Proof.
  intros [L H]. split; [unfold assign; rewrite map_length, combine_length, seq_length; lia|]. unfold assign. apply Forall_forall. intros row Hr. apply in_map_iff in Hr. destruct Hr as ([i row'] & <- & Hin). cbn [fst snd]. rewrite map_length, combine_length, seq_length, Nat.min_id.
  apply in_combine_r in Hin. rewrite Forall_forall in H. auto.
Qed.
Lemma zeros_rect r c : rect (zeros zero r c) r c.
Proof. split; [apply repeat_length|]. apply Forall_forall. intros x Hx. apply repeat_spec in Hx. subst. apply repeat_length. Qed.
Lemma zeros_get r c x y : x < r -> y < c -> get2 (zeros zero r c) x y = Some zero.
Proof.
  intros Hx Hy. unfold get2, zeros. assert (G : forall {B} (v : B) n i, i < n -> nth_error (repeat v n) i = Some v). { clear. induction n as [|n IH]; intros [|i] H; simpl; auto; try lia. apply IH. lia. }
  rewrite G by auto. now apply G.
Qed.
(** The rows and columns above and left of block b *)
Definition row_of (blocks : list (list (list A))) (b : nat) : nat := list_sum (map n_rows (firstn b blocks)).
Definition col_of (blocks : list (list (list A))) (b : nat) : nat := list_sum (map n_cols (firstn b blocks)).
(** A matrix has rows of one length. *)
Definition regular (m : list (list A)) : Prop := rect m (n_rows m) (n_cols m).
Lemma list_sum_cons x l : list_sum (x :: l) = x + list_sum l.
Proof. reflexivity. Qed.
Lemma fill_spec blocks : Forall regular blocks -> forall out r c h w, rect out h w -> h = r + list_sum (map n_rows blocks) -> w = c + list_sum (map n_cols blocks) ->
  rect (fill_blocks out r c blocks) h w /\
  (forall b blk i j, nth_error blocks b = Some blk -> i < n_rows blk -> j < n_cols blk -> get2 (fill_blocks out r c blocks) (r + row_of blocks b + i) (c + col_of blocks b + j) = get2 blk i j) /\
  (forall x y, (forall b blk, nth_error blocks b = Some blk -> ~ (r + row_of blocks b <= x < r + row_of blocks b + n_rows blk /\ c + col_of blocks b <= y < c + col_of blocks b + n_cols blk)) -> get2 (fill_blocks out r c blocks) x y = get2 out x y).
Proof.
  induction blocks as [|m blocks IH]; intros Hr out r c h w Ro Eh Ew; cbn [fill_blocks].
  - split; auto. split; [intros [|b] ? ? ? H; discriminate|auto].
  - inversion Hr as [|? ? Rm Hr']; subst. cbn [map] in *. rewrite !list_sum_cons in Ro. rewrite !list_sum_cons.
    destruct (IH Hr' (assign out r c m) (r + n_rows m) (c + n_cols m) _ _ (assign_rect _ _ _ _ _ _ Ro) (Nat.add_assoc _ _ _) (Nat.add_assoc _ _ _)) as (I1 & I2 & I3).
    assert (Off : forall b, row_of (m :: blocks) (S b) = n_rows m + row_of blocks b /\ col_of (m :: blocks) (S b) = n_cols m + col_of blocks b) by (intros b; split; reflexivity).
    split; auto. split.
    + intros [|b] blk i j Hb Hi Hj; simpl in Hb.
      * injection Hb as <-. unfold row_of, col_of. cbn [firstn map list_sum fold_right]. change (list_sum []) with 0. rewrite !Nat.add_0_r.
        rewrite I3. { rewrite assign_get. assert (Hin : exists v, get2 out (r + i) (c + j) = Some v) by (apply (rect_get out _ _ (r + i) (c + j) Ro); lia). destruct Hin as (v & ->).
          replace (r <=? r + i) with true by (symmetry; apply Nat.leb_le; lia). replace (c <=? c + j) with true by (symmetry; apply Nat.leb_le; lia). cbn [andb]. replace (r + i - r) with i by lia. replace (c + j - c) with j by lia.
          destruct (rect_get m _ _ i j Rm Hi Hj) as (u & ->). reflexivity. }
        intros b blk Hb [H1 H2]. lia.
      * destruct (Off b) as [-> ->]. rewrite !Nat.add_assoc. now apply I2.
    + intros x y H. rewrite I3.
      * rewrite assign_get. destruct (get2 out x y); auto. destruct ((r <=? x) && (c <=? y)) eqn:E; auto. apply andb_true_iff in E. rewrite !Nat.leb_le in E.
        destruct (get2 m (x - r) (y - c)) as [u|] eqn:Eu; auto. exfalso. apply (H 0 m eq_refl). unfold row_of, col_of. cbn [firstn map]. change (list_sum []) with 0.
        assert (x - r < n_rows m /\ y - c < n_cols m); [|lia]. unfold get2 in Eu. destruct (nth_error m (x - r)) as [row|] eqn:Er; [|discriminate]. split; [apply nth_error_Some; congruence|].
        destruct Rm as [_ Rm]. rewrite Forall_forall in Rm. rewrite <- (Rm row (nth_error_In _ _ Er)). apply nth_error_Some. congruence.
      * intros b blk Hb. specialize (H (S b) blk Hb). destruct (Off b) as [E1 E2]. rewrite E1, E2 in H. lia.
Qed.
(** Blocks of any sizes: each block is found below and right of the ones before it,
    and every other entry is zero. *)
Theorem C34_assembled : forall blocks, Forall regular blocks -> let m := block_diag zero blocks in
  rect m (list_sum (map n_rows blocks)) (list_sum (map n_cols blocks)) /\
  (forall b blk i j, nth_error blocks b = Some blk -> i < n_rows blk -> j < n_cols blk -> get2 m (row_of blocks b + i) (col_of blocks b + j) = get2 blk i j) /\
  (forall x y, x < list_sum (map n_rows blocks) -> y < list_sum (map n_cols blocks) ->
    (forall b blk, nth_error blocks b = Some blk -> ~ (row_of blocks b <= x < row_of blocks b + n_rows blk /\ col_of blocks b <= y < col_of blocks b + n_cols blk)) -> get2 m x y = Some zero).
Proof.
  intros blocks H m. destruct (fill_spec blocks H _ 0 0 _ _ (zeros_rect (list_sum (map n_rows blocks)) (list_sum (map n_cols blocks))) eq_refl eq_refl) as (H1 & H2 & H3). split; [exact H1|]. split; [exact H2|].
  intros x y Hx Hy Hn. unfold m, block_diag. rewrite H3 by exact Hn. now apply zeros_get.
Qed.

(** ** Round trip *)
Lemma uniform_sum (blocks : list (list (list A))) n : 0 < n -> Forall (fun m => rect m n n) blocks ->
  Forall regular blocks /\ (forall b, b <= List.length blocks -> row_of blocks b = b * n /\ col_of blocks b = b * n) /\ forall m, In m blocks -> n_rows m = n /\ n_cols m = n.
Proof.
  intros Hn H. rewrite Forall_forall in H. assert (E : forall m, In m blocks -> n_rows m = n /\ n_cols m = n) by (intros m Hm; split; [apply (H m Hm)|apply (rect_cols m n n (H m Hm) Hn)]).
  split; [|split; auto].
  - apply Forall_forall. intros m Hm. unfold regular. destruct (E m Hm) as [-> ->]. auto.
  - assert (G : forall (f : list (list A) -> nat) l, (forall m, In m l -> f m = n) -> list_sum (map f l) = List.length l * n).
    { intros f l. induction l as [|x l IH]; intros Hl; [reflexivity|]. cbn [map]. rewrite list_sum_cons, IH by (intros; apply Hl; simpl; auto). rewrite Hl by (simpl; auto). reflexivity. }
    assert (Hin : forall b m, In m (firstn b blocks) -> In m blocks) by (intros b m Hm; rewrite <- (firstn_skipn b blocks); apply in_or_app; auto).
    intros b Hb. unfold row_of, col_of. rewrite !G, firstn_length_le; auto; intros m Hm; apply E; eapply Hin; eauto.
Qed.
Lemma matrix_ext (a b : list (list A)) h w : rect a h w -> rect b h w -> (forall i j, i < h -> j < w -> get2 a i j = get2 b i j) -> a = b.
Proof.
  intros [La Ha] [Lb Hb] H. rewrite Forall_forall in Ha, Hb. assert (X : forall {B} (u v : list B), List.length u = List.length v -> (forall i, i < List.length u -> nth_error u i = nth_error v i) -> u = v).
  { clear. induction u as [|x u IH]; intros [|y v] L H; simpl in L; try discriminate; auto. f_equal; [specialize (H 0 ltac:(simpl; lia)); simpl in H; congruence|]. apply IH; [lia|]. intros i Hi. apply (H (S i)). simpl. lia. }
  apply X; [lia|]. intros i Hi. destruct (nth_error a i) as [ra|] eqn:Ea; [|apply nth_error_None in Ea; lia]. destruct (nth_error b i) as [rb|] eqn:Eb; [|apply nth_error_None in Eb; lia]. f_equal.
  pose proof (Ha ra (nth_error_In _ _ Ea)) as L1. pose proof (Hb rb (nth_error_In _ _ Eb)) as L2. apply X; [lia|]. intros j Hj. specialize (H i j ltac:(lia) ltac:(lia)). unfold get2 in H. rewrite Ea, Eb in H. exact H.
Qed.
Theorem C34_round_trip : forall blocks n, 0 < n -> Forall (fun m => rect m n n) blocks -> extract_block_diag (block_diag zero blocks) n 0 = Some blocks.
Proof.
  intros blocks n Hn H. destruct (uniform_sum blocks n Hn H) as (Hr & Hoff & Hsz). destruct (C34_assembled blocks Hr) as (Rm & Hblk & _). set (m := block_diag zero blocks) in *.
  assert (T : list_sum (map n_rows blocks) = List.length blocks * n /\ list_sum (map n_cols blocks) = List.length blocks * n). { destruct (Hoff (List.length blocks) ltac:(lia)) as [E1 E2]. unfold row_of, col_of in *. rewrite firstn_all in E1, E2. auto. }
  destruct T as [T1 T2]. rewrite T1, T2 in Rm. destruct (C34_extract m _ _ n 0%Z Rm Hn) as (bl & E & L & Hb). rewrite E. f_equal.
  change (Z.to_nat (- 0)) with 0 in *. change (Z.to_nat 0) with 0 in *. rewrite !Nat.mul_0_r, !Nat.sub_0_r, Nat.div_mul, Nat.min_id in L by lia.
  assert (X : forall {B} (u v : list B), List.length u = List.length v -> (forall i a b, nth_error u i = Some a -> nth_error v i = Some b -> a = b) -> u = v).
  { clear. induction u as [|x u IH]; intros [|y v] L H; simpl in L; try discriminate; auto. f_equal; [apply (H 0); auto|]. apply IH; [lia|]. intros i a b Ha Hb. apply (H (S i)); auto. }
  apply X; auto. intros b a c Ha Hc. destruct (Hb b a Ha) as (Ra & Hg). rewrite Forall_forall in H. pose proof (H c (nth_error_In _ _ Hc)) as Rc. apply (matrix_ext a c n n Ra Rc). intros i j Hi Hj. rewrite Hg by auto.
  destruct (Hsz c (nth_error_In _ _ Hc)) as [S1 S2]. assert (b < List.length blocks) by (apply nth_error_Some; intros X0; pose proof (eq_trans (eq_sym Hc) X0); discriminate). destruct (Hoff b ltac:(lia)) as [O1 O2].
  rewrite <- (Hblk b c i j Hc) by lia. rewrite O1, O2. f_equal; lia.
Qed.

(** ** Through the scene *)
Lemma fancy_get_in (l : list (list (list A))) ids covs : fancy_get l ids = Some covs -> forall m, In m covs -> In m l.
Proof.
  unfold fancy_get. revert covs. induction ids as [|i ids IH]; intros covs H m Hm; simpl in H; [injection H as <-; destruct Hm|]. destruct (nth_error l i) eqn:E; [|discriminate]. destruct (mapM (nth_error l) ids) as [t|]; [|discriminate]. injection H as <-. destruct Hm as [<-|Hm]; [eapply nth_error_In; eauto|eauto].
Qed.
Lemma upd_self {B} (l : list B) i v : nth_error l i = Some v -> upd i v l = l.
Proof. revert i. induction l as [|x l IH]; intros [|i] H; simpl in *; try discriminate; [congruence|]. rewrite IH; auto. Qed.
Lemma put_back (l : list (list (list A))) ids covs : fancy_get l ids = Some covs -> fancy_put l ids covs = l.
Proof.
  unfold fancy_get. revert covs. induction ids as [|i ids IH]; intros covs H; simpl in H; [injection H as <-; reflexivity|]. destruct (nth_error l i) eqn:E; [|discriminate]. destruct (mapM (nth_error l) ids) as [t|] eqn:Et; [|discriminate]. injection H as <-. simpl. rewrite (upd_self _ _ _ E). now apply IH.
Qed.
(** Sources handed out with their joint matrix get back the same matrices when it comes
    back unchanged: nothing is mixed between sources. *)
Theorem C34_returned_unchanged : forall (covs : list (list (list A))) ids n cov blocks, 0 < n -> Forall (fun m => rect m n n) covs ->
  covs_of zero covs ids = Some cov -> extract_block_diag cov n 0 = Some blocks -> update_covs covs ids blocks = covs.
Proof.
  intros covs ids n cov blocks Hn H E X. unfold covs_of in E. destruct (@fancy_get (@matrix A) covs ids) as [cs|] eqn:Eg; [|discriminate]. cbn [option_map] in E. assert (E' : cov = block_diag zero cs) by congruence. subst cov. rewrite C34_round_trip in X; auto; [assert (E' : blocks = cs) by congruence; subst; now apply put_back|].
  rewrite Forall_forall in *. intros m Hm. apply H. eapply fancy_get_in; eauto.
Qed.
End Facts.
Example C34_case : Forall (fun m => rect m 2 2) [[[1; 2]; [3; 4]]; [[5; 6]; [7; 8]]]%nat /\ Forall regular [[[1; 2; 3]]; [[4]; [5]]]%nat /\
  block_diag 0 [[[1; 2]; [3; 4]]; [[5; 6]; [7; 8]]] = [[1; 2; 0; 0]; [3; 4; 0; 0]; [0; 0; 5; 6]; [0; 0; 7; 8]] /\
  covs_of 0 [[[1; 2]; [3; 4]]; [[5; 6]; [7; 8]]] [1; 0] = Some [[5; 6; 0; 0]; [7; 8; 0; 0]; [0; 0; 1; 2]; [0; 0; 3; 4]].
Proof. split; [repeat constructor|]. split; [repeat constructor|]. split; vm_compute; reflexivity. Qed.
Print Assumptions C34_extract.
Print Assumptions C34_assembled.
Print Assumptions C34_round_trip.
Print Assumptions C34_returned_unchanged.
