(** Lemmas about package loading. *)
From Verif Require Import Base DepsModel.

(** ** association lists *)
Lemma get_put : forall A (l : list (nat * A)) k v j, get (put l k v) j = if k =? j then Some v else get l j.
Proof.
  intros A l k v j. induction l as [|[x w] l IH]; cbn [put get]; [destruct (k =? j); reflexivity|].
  destruct (x =? k) eqn:E.
  - apply Nat.eqb_eq in E. subst x. cbn [get]. destruct (k =? j); reflexivity.
  - cbn [get]. rewrite IH. destruct (x =? j) eqn:F; [|reflexivity]. apply Nat.eqb_eq in F. subst j. rewrite Nat.eqb_sym, E. reflexivity.
Qed.
Lemma get_in : forall A (l : list (nat * A)) k v, get l k = Some v -> In (k, v) l.
Proof. intros A l k v. induction l as [|[x w] l IH]; cbn; [discriminate|]. destruct (x =? k) eqn:E; [apply Nat.eqb_eq in E; intros [= <-]; subst; auto|auto]. Qed.
Lemma get_key : forall A (l : list (nat * A)) k, get l k <> None <-> In k (map fst l).
Proof.
  intros A l k. induction l as [|[x w] l IH]; cbn; [tauto|]. destruct (x =? k) eqn:E.
  - apply Nat.eqb_eq in E. split; [auto|discriminate].
  - apply Nat.eqb_neq in E. rewrite IH. tauto.
Qed.
Lemma in_get : forall A (l : list (nat * A)) k v, NoDup (map fst l) -> In (k, v) l -> get l k = Some v.
Proof.
  intros A l k v. induction l as [|[x w] l IH]; cbn; [tauto|]. intros N [H|H]; [injection H as -> ->; rewrite Nat.eqb_refl; reflexivity|].
  inversion N as [|y m N1 N2]; subst. destruct (x =? k) eqn:E; [|auto]. apply Nat.eqb_eq in E. subst x. exfalso. apply N1. change k with (fst (k, v)). now apply in_map.
Qed.
Lemma put_keys : forall A (l : list (nat * A)) k v j, In j (map fst (put l k v)) <-> j = k \/ In j (map fst l).
Proof. intros A l k v j. rewrite <- !get_key, get_put. destruct (k =? j) eqn:E; [apply Nat.eqb_eq in E; subst; split; [auto|discriminate]|apply Nat.eqb_neq in E; intuition]. Qed.
Lemma put_nodup : forall A (l : list (nat * A)) k v, NoDup (map fst l) -> NoDup (map fst (put l k v)).
Proof.
  intros A l k v. induction l as [|[x w] l IH]; cbn; intros N; [constructor; [auto|constructor]|].
  inversion N as [|y m N1 N2]; subst. destruct (x =? k) eqn:E; cbn.
  - apply Nat.eqb_eq in E. subst x. constructor; auto.
  - apply Nat.eqb_neq in E. constructor; [rewrite put_keys; tauto|auto].
Qed.
Lemma extend_nodup : forall A (m l : list (nat * A)), NoDup (map fst l) -> NoDup (map fst (extend l m)).
Proof. intros A m. induction m as [|[x w] m IH]; intros l N; [exact N|]. apply (IH (put l x w)). now apply put_nodup. Qed.
Lemma get_extend : forall A (m l : list (nat * A)) k, NoDup (map fst m) -> get (extend l m) k = match get m k with Some v => Some v | None => get l k end.
Proof.
  intros A m. induction m as [|[x w] m IH]; intros l k N; [reflexivity|]. cbn in N. inversion N as [|y z N1 N2]; subst.
  change (extend l ((x, w) :: m)) with (extend (put l x w) m). rewrite IH by auto. cbn [get]. rewrite get_put. destruct (x =? k) eqn:E; [|reflexivity].
  apply Nat.eqb_eq in E. subst k. destruct (get m x) eqn:F; [|reflexivity]. exfalso. apply N1. apply get_key. congruence.
Qed.
Lemma mem_iff : forall k l, mem k l = true <-> In k l.
Proof. intros k l. unfold mem. rewrite existsb_exists. split; [intros (x & I & E); apply Nat.eqb_eq in E; now subst|intros I; exists k; split; auto; apply Nat.eqb_refl]. Qed.

(** ** what the manifests say *)
Definition found (f : fs) (p q : mpath) (k : kind) : Prop :=
  exists t d r, read_manifest f p = Some t /\ In d (t_deps t) /\ d_root d = Some r /\ find_toml f r = Some q /\ d_from d = k.
Inductive reachable (f : fs) (p : mpath) : mpath -> Prop :=
| re_here : reachable f p p
| re_step : forall q r k, reachable f p q -> found f q r k -> reachable f p r.
Lemma reachable_trans : forall f p q r, reachable f p q -> reachable f q r -> reachable f p r.
Proof. intros f p q r H1 H2. induction H2; auto. eapply re_step; eauto. Qed.
Lemma found_reachable : forall f p q k, found f p q k -> reachable f p q.
Proof. intros. eapply re_step; [apply re_here|eauto]. Qed.
(** reached through local dependencies only / through a git dependency *)
Inductive local_reach (f : fs) (p : mpath) : mpath -> Prop :=
| lr_here : local_reach f p p
| lr_step : forall q r, local_reach f p q -> found f q r Local -> local_reach f p r.
Definition git_reach (f : fs) (p q : mpath) : Prop := exists x y, reachable f p x /\ found f x y Git /\ reachable f y q.
Lemma local_reachable : forall f p q, local_reach f p q -> reachable f p q.
Proof. intros f p q H. induction H; [constructor|eapply re_step; eauto]. Qed.

(** an entry says what the manifest says *)
Definition described (f : fs) (p : mpath) (o : option entry) : Prop :=
  match read_manifest f p, o with
  | None, None => True
  | Some t, Some e =>
      en_name e = t_name t /\ en_addrs e = t_addrs t /\ en_resolve e = true /\
      (forall q k, In (q, k) (en_deps e) <-> exists k', found f p q k' /\ k = (match en_kind e, k' with Local, Local => Local | _, _ => Git end)) /\
      (forall n, In n (en_missing e) <-> exists d r, In d (t_deps t) /\ d_name d = n /\ d_root d = Some r /\ find_toml f r = None)
  | _, _ => False
  end.

Lemma declared_length : forall f k ds, length (fst (declared f k ds)) <= length ds.
Proof. intros f k ds. induction ds as [|d ds IH]; cbn; [lia|]. destruct (declared f k ds) as [a b]. cbn in IH. destruct (d_root d); [destruct (find_toml f d0)|]; cbn; lia. Qed.
Lemma declared_deps : forall f k ds q k', In (q, k') (fst (declared f k ds)) <-> exists d r, In d ds /\ d_root d = Some r /\ find_toml f r = Some q /\ k' = dep_kind k (d_from d).
Proof.
  intros f k ds q k'. induction ds as [|d ds IH]; cbn [declared]; [cbn; split; [tauto|intros (d & r & [] & _)]|].
  destruct (declared f k ds) as [a b]. cbn [fst] in IH.
  assert (R : (exists d0 r, In d0 (d :: ds) /\ d_root d0 = Some r /\ find_toml f r = Some q /\ k' = dep_kind k (d_from d0)) <->
              (exists r, d_root d = Some r /\ find_toml f r = Some q /\ k' = dep_kind k (d_from d)) \/ In (q, k') a).
  { rewrite IH. split.
    - intros (d0 & r & [->|I] & H); [left; eauto|right; eauto].
    - intros [(r & H)|(d0 & r & I & H)]; [exists d, r; cbn; auto|exists d0, r; cbn; auto]. }
  rewrite R. destruct (d_root d) as [r|] eqn:E; [destruct (find_toml f r) as [p|] eqn:F|]; cbn [fst].
  - split; [intros [H|H]; auto; injection H as <- <-; eauto|]. intros [(r' & H1 & H2 & H3)|H]; [|now right]. left. congruence.
  - split; auto. intros [(r' & H1 & H2 & H3)|H]; auto. congruence.
  - split; auto. intros [(r' & H1 & _)|H]; auto. congruence.
Qed.
Lemma declared_missing : forall f k ds n, In n (snd (declared f k ds)) <-> exists d r, In d ds /\ d_name d = n /\ d_root d = Some r /\ find_toml f r = None.
Proof.
  intros f k ds n. induction ds as [|d ds IH]; cbn [declared]; [cbn; split; [tauto|intros (d & r & [] & _)]|].
  destruct (declared f k ds) as [a b]. cbn [snd] in IH.
  assert (R : (exists d0 r, In d0 (d :: ds) /\ d_name d0 = n /\ d_root d0 = Some r /\ find_toml f r = None) <->
              (exists r, d_name d = n /\ d_root d = Some r /\ find_toml f r = None) \/ In n b).
  { rewrite IH. split.
    - intros (d0 & r & [->|I] & H); [left; eauto|right; eauto].
    - intros [(r & H)|(d0 & r & I & H)]; [exists d, r; cbn; auto|exists d0, r; cbn; auto]. }
  rewrite R. destruct (d_root d) as [r|] eqn:E; [destruct (find_toml f r) as [p|] eqn:F|]; cbn [snd].
  - split; auto. intros [(r' & H1 & H2 & H3)|H]; auto. congruence.
  - split; [intros [H|H]; eauto|]. intros [(r' & H1 & H2 & H3)|H]; [left; congruence|now right].
  - split; auto. intros [(r' & _ & H1 & _)|H]; auto. congruence.
Qed.

Lemma read_described : forall f p t k deps missing, read_manifest f p = Some t -> declared f k (t_deps t) = (deps, missing) ->
  described f p (Some (mkEntry (t_name t) k deps true missing (t_addrs t))).
Proof.
  intros f p t k deps missing H D. unfold described. rewrite H. cbn. repeat (split; [reflexivity|]). split.
  - intros q k'. pose proof (declared_deps f k (t_deps t) q k') as X. rewrite D in X. cbn [fst] in X. rewrite X. split.
    + intros (d & r & I & R & F & ->). exists (d_from d). split; [exists t, d, r; auto|]. destruct k, (d_from d); reflexivity.
    + intros (k2 & (t' & d & r & R & I & DR & F & <-) & ->). rewrite H in R. injection R as <-. exists d, r. repeat split; auto. destruct k, (d_from d); reflexivity.
  - intros n. pose proof (declared_missing f k (t_deps t) n) as X. rewrite D in X. exact X.
Qed.

(** ** collect_reachable_manifests *)
Definition budget_of {A} (f : fs) (res : list (mpath * A)) (l : list (mpath * option toml)) : nat :=
  fold_right (fun e n => match get res (fst e), snd e with None, Some t => length (t_deps t) + n | _, _ => n end) 0 l.
Lemma budget_put : forall A f (res : list (mpath * A)) l p v, budget_of f (put res p v) l <= budget_of f res l.
Proof.
  intros A f res l p v. induction l as [|[x o] l IH]; cbn; [lia|]. rewrite get_put. unfold budget_of in IH. destruct (p =? x) eqn:E; destruct (get res x); destruct o; lia.
Qed.
Lemma budget_spend : forall A f (res : list (mpath * A)) l p t v, get l p = Some (Some t) -> get res p = None -> budget_of f (put res p v) l + length (t_deps t) <= budget_of f res l.
Proof.
  intros A f res l p t v. induction l as [|[x o] l IH]; cbn [get]; [discriminate|]. intros H N. destruct (x =? p) eqn:E.
  - apply Nat.eqb_eq in E. subst x. injection H as ->. cbn [budget_of fold_right fst snd]. rewrite get_put, Nat.eqb_refl, N. pose proof (budget_put A f res l p v) as B. unfold budget_of in *. lia.
  - specialize (IH H N). cbn [budget_of fold_right fst snd]. rewrite get_put. rewrite Nat.eqb_sym, E. unfold budget_of in *. destruct (get res x); destruct o; lia.
Qed.
Lemma reach_loop_stops : forall f fuel queue res, length queue + budget_of f res (manifests f) < fuel -> exists r, reach_loop fuel f queue res = Some r.
Proof.
  intros f fuel. induction fuel as [|n IH]; intros queue res L; [lia|]. cbn [reach_loop]. destruct queue as [|[[p k] b] queue]; [eauto|]. cbn [length] in L.
  destruct (get res p) eqn:G; [apply IH; lia|]. destruct (read_manifest f p) as [t|] eqn:R.
  - assert (GM : get (manifests f) p = Some (Some t)) by (unfold read_manifest in R; destruct (get (manifests f) p) as [[x|]|]; congruence).
    destruct b.
    + destruct (declared f k (t_deps t)) as [deps missing] eqn:D. apply IH. rewrite app_length, map_length. pose proof (declared_length f k (t_deps t)) as DL. rewrite D in DL. cbn in DL.
      pose proof (budget_spend _ f res _ p t (Some (mkEntry (t_name t) k deps true missing (t_addrs t))) GM G). lia.
    + apply IH. match goal with |- context [put res p ?v] => pose proof (budget_put _ f res (manifests f) p v) end. lia.
  - apply IH. match goal with |- context [put res p ?v] => pose proof (budget_put _ f res (manifests f) p v) end. lia.
Qed.
Lemma budget_all : forall f, budget_of (A:=option entry) f [] (manifests f) = all_deps f.
Proof. reflexivity. Qed.

Lemma reach_nodup : forall f fuel queue res r, reach_loop fuel f queue res = Some r -> NoDup (map fst res) -> NoDup (map fst r).
Proof.
  intros f fuel. induction fuel as [|n IH]; intros queue res r H N; [discriminate|]. cbn [reach_loop] in H. destruct queue as [|[[p k] b] queue]; [now injection H as <-|].
  destruct (get res p); [eauto|]. destruct (read_manifest f p) as [t|]; [destruct b; [destruct (declared f k (t_deps t))|]|]; eapply IH; eauto using put_nodup.
Qed.
(** what is known about the queue and the result on the way *)
Record reach_inv (f : fs) (w : mpath) (queue : list (mpath * kind * bool)) (res : list (mpath * option entry)) : Prop := mkRI {
  ri_queue : forall p k b, In (p, k, b) queue -> b = true /\ reachable f w p /\ (k = Local -> local_reach f w p) /\ (k = Git -> git_reach f w p);
  ri_res : forall p o, get res p = Some o -> reachable f w p /\ described f p o /\ (forall e, o = Some e -> (en_kind e = Local -> local_reach f w p) /\ (en_kind e = Git -> git_reach f w p));
  ri_start : get res w <> None \/ exists k, In (w, k, true) queue;
  ri_closed : forall p q k, get res p <> None -> found f p q k -> get res q <> None \/ exists k', In (q, k', true) queue }.
Lemma reach_loop_inv : forall f w fuel queue res r, reach_loop fuel f queue res = Some r -> reach_inv f w queue res -> reach_inv f w [] r.
Proof.
  intros f w fuel. induction fuel as [|n IH]; intros queue res r H I; [discriminate|]. cbn [reach_loop] in H. destruct queue as [|[[p k] b] queue]; [now injection H as <-|].
  destruct I as [I1 I2 I3 I4]. destruct (I1 p k b (or_introl eq_refl)) as (-> & RP & LP & GP).
  destruct (get res p) as [o|] eqn:G.
  { apply (IH _ _ _ H). split; auto.
    - intros p' k' b' I. apply (I1 p' k' b'). now right.
    - destruct I3 as [I3|(k' & [I3|I3])]; eauto. injection I3 as -> ->. left. congruence.
    - intros p' q k' H1 H2. destruct (I4 _ _ _ H1 H2) as [X|(k2 & [X|X])]; eauto. injection X as -> ->. left. congruence. }
  assert (GEN : forall o extra, (forall x, In x extra -> exists k', found f p (fst (fst x)) k' /\ x = (fst (fst x), dep_kind k k', true)) ->
    described f p o -> (forall e, o = Some e -> en_kind e = k) -> (forall q k', found f p q k' -> exists k2, In (q, k2, true) extra) ->
    reach_inv f w (queue ++ extra) (put res p o)).
  { intros o extra EX DS KD FD. split.
    - intros p' k' b' I. apply in_app_iff in I. destruct I as [I|I]; [apply (I1 p' k' b'); now right|].
      destruct (EX _ I) as (k2 & F & E). cbn in F, E. injection E as -> ->. split; auto. split; [eapply re_step; eauto|]. split.
      + intros E. destruct k, k2; try discriminate. eapply lr_step; eauto.
      + intros E. destruct k2.
        * destruct k; [discriminate|]. destruct (GP eq_refl) as (x & y & A & B & C). exists x, y. split; auto. split; auto. eapply re_step; eauto.
        * exists p, p'. split; auto. split; auto. constructor.
    - intros p' o' E. rewrite get_put in E. destruct (p =? p') eqn:EQ; [|eauto]. apply Nat.eqb_eq in EQ. subst p'. injection E as <-. split; auto. split; auto.
      intros e E. specialize (KD _ E). subst k. split; auto.
    - destruct I3 as [I3|(k' & [I3|I3])].
      + left. rewrite get_put. destruct (p =? w); [discriminate|auto].
      + injection I3 as -> ->. left. rewrite get_put, Nat.eqb_refl. discriminate.
      + right. exists k'. apply in_app_iff. auto.
    - intros p' q k' H1 H2. rewrite get_put in H1. destruct (p =? p') eqn:EQ.
      + apply Nat.eqb_eq in EQ. subst p'. right. destruct (FD _ _ H2) as (k2 & X). exists k2. apply in_app_iff. auto.
      + destruct (I4 _ _ _ H1 H2) as [X|(k2 & [X|X])].
        * left. rewrite get_put. destruct (p =? q); [discriminate|auto].
        * injection X as -> ->. left. rewrite get_put, Nat.eqb_refl. discriminate.
        * right. exists k2. apply in_app_iff. auto. }
  destruct (read_manifest f p) as [t|] eqn:R.
  - destruct (declared f k (t_deps t)) as [deps missing] eqn:D. apply (IH _ _ _ H). pose proof (fun q k' => declared_deps f k (t_deps t) q k') as DD. rewrite D in DD. cbn [fst] in DD. apply GEN.
    + intros x I. apply in_map_iff in I. destruct I as ([q k'] & <- & I). cbn. apply DD in I. destruct I as (d & r0 & I & DR & F & ->). exists (d_from d). split; [exists t, d, r0; auto|reflexivity].
    + now apply read_described.
    + intros e [= <-]. reflexivity.
    + intros q k' (t' & d & r0 & R' & I & DR & F & <-). rewrite R in R'. injection R' as <-. exists (dep_kind k (d_from d)). apply in_map_iff. exists (q, dep_kind k (d_from d)). split; [reflexivity|]. apply DD. exists d, r0. auto.
  - apply (IH _ _ _ H). rewrite <- (app_nil_r queue). apply GEN.
    + intros x [].
    + unfold described. rewrite R. exact Logic.I.
    + discriminate.
    + intros q k' (t' & d & r0 & R' & _). congruence.
Qed.
Lemma reach_start_inv : forall f w, reach_inv f w [(w, Local, true)] [].
Proof.
  intros f w. split.
  - intros p k b [E|[]]. injection E as <- <- <-. repeat split; auto; try constructor. discriminate.
  - discriminate.
  - right. exists Local. now left.
  - intros p q k H. now destruct H.
Qed.

(** ** collect_deps_transitively *)
Definition weigh (seen : list mpath) (e : mpath * entry) : nat := if mem (fst e) seen then 0 else length (en_deps (snd e)).
Fixpoint left_deps (seen : list mpath) (es : list (mpath * entry)) : nat :=
  match es with [] => 0 | e :: es' => weigh seen e + left_deps seen es' end.
Lemma weigh_more : forall seen p e, weigh (p :: seen) e <= weigh seen e.
Proof. intros seen p [x e]. unfold weigh. cbn [fst snd]. change (mem x (p :: seen)) with ((x =? p) || mem x seen). destruct (x =? p); cbn [orb]; [lia|]. destruct (mem x seen); lia. Qed.
Lemma left_more : forall es seen p, left_deps (p :: seen) es <= left_deps seen es.
Proof. intros es seen p. induction es as [|e es IH]; cbn [left_deps]; [lia|]. pose proof (weigh_more seen p e). lia. Qed.
Lemma left_spend : forall es seen p e, get es p = Some e -> mem p seen = false -> left_deps (p :: seen) es + length (en_deps e) <= left_deps seen es.
Proof.
  intros es seen p e. induction es as [|[x e'] es IH]; cbn [get left_deps]; [discriminate|]. intros H N. destruct (x =? p) eqn:E.
  - apply Nat.eqb_eq in E. subst x. injection H as ->. pose proof (left_more es seen p) as B. unfold weigh. cbn [fst snd]. change (mem p (p :: seen)) with ((p =? p) || mem p seen). rewrite Nat.eqb_refl, N. cbn [orb]. unfold mpath in *. lia.
  - specialize (IH H N). pose proof (weigh_more seen p (x, e')). unfold mpath in *. lia.
Qed.
Lemma deps_loop_stops : forall es fuel queue seen names res, length queue + left_deps seen es < fuel -> exists r, deps_loop fuel es queue seen names res = Some r.
Proof.
  intros es fuel. induction fuel as [|n IH]; intros queue seen names res L; [lia|]. cbn [deps_loop]. destruct queue as [|d queue]; [eauto|]. cbn [length] in L.
  destruct (mem (fst d) seen) eqn:M; [apply IH; lia|]. pose proof (left_more es seen (fst d)) as LM. unfold mpath in *. destruct (get es (fst d)) as [e|] eqn:G; [|apply IH; lia].
  pose proof (left_spend es seen _ _ G M) as LS. destruct (en_name e) as [x|]; [destruct (mem x names)|]; apply IH; rewrite ?app_length; unfold mpath in *; lia.
Qed.
Lemma left_all : forall es, left_deps [] es = entry_deps es.
Proof. intros es. induction es as [|[x e] es IH]; [reflexivity|]. cbn [left_deps entry_deps fold_right]. rewrite IH. reflexivity. Qed.

(** dependencies through the entries *)
Inductive edge (es : list (mpath * entry)) (start : list (mpath * kind)) : mpath * kind -> Prop :=
| ed_start : forall d, In d start -> edge es start d
| ed_step : forall d e d', edge es start d -> get es (fst d) = Some e -> In d' (en_deps e) -> edge es start d'.
Definition named (es : list (mpath * entry)) (p : mpath) (x : name) : Prop := exists e, get es p = Some e /\ en_name e = Some x.
Definition listed (res : list (mpath * kind)) (p : mpath) : Prop := In p (map fst res).
(** in the result, or another package of the same name is *)
Definition covered (es : list (mpath * entry)) (res : list (mpath * kind)) (p : mpath) : Prop := listed res p \/ exists q x, listed res q /\ named es p x /\ named es q x.
(** as [edge], through the packages of the result only *)
Inductive kept_edge (es : list (mpath * entry)) (start res : list (mpath * kind)) : mpath * kind -> Prop :=
| ke_start : forall d, In d start -> kept_edge es start res d
| ke_step : forall d e d', kept_edge es start res d -> In d res -> get es (fst d) = Some e -> In d' (en_deps e) -> kept_edge es start res d'.
Lemma listed_app : forall res d p, listed (res ++ [d]) p <-> listed res p \/ p = fst d.
Proof. intros. unfold listed. rewrite map_app, in_app_iff. cbn. intuition. Qed.
Lemma covered_app : forall es res d p, covered es res p -> covered es (res ++ [d]) p.
Proof. intros es res d p [H|(q & x & H & N)]; [left; apply listed_app; auto|right; exists q, x; split; auto; apply listed_app; auto]. Qed.
Lemma kept_app : forall es start res d x, kept_edge es start res x -> kept_edge es start (res ++ [d]) x.
Proof. intros es start res d x H. induction H; [now constructor|]. eapply ke_step; eauto. apply in_app_iff. auto. Qed.
Lemma nodup_snoc : forall (l : list nat) x, NoDup l -> ~ In x l -> NoDup (l ++ [x]).
Proof. intros l x N H. induction N as [|y l Ny N IH]; cbn; [constructor; [auto|constructor]|]. constructor; [rewrite in_app_iff; cbn in *; intuition|apply IH; intuition]. Qed.

Record deps_inv (es : list (mpath * entry)) (start queue : list (mpath * kind)) (seen : list mpath) (names : list name) (res : list (mpath * kind)) : Prop := mkDI {
  di_queue : forall d, In d queue -> kept_edge es start res d;
  di_res : forall d, In d res -> kept_edge es start res d;
  di_once : NoDup (map fst res);
  di_seen : forall p, listed res p -> In p seen;
  di_cov : forall p, In p seen -> covered es res p;
  di_names : forall x, In x names <-> exists q, listed res q /\ named es q x;
  di_names_once : forall p q x, listed res p -> listed res q -> named es p x -> named es q x -> p = q;
  di_start : forall d, In d start -> In (fst d) seen \/ In d queue;
  di_closed : forall p e d, listed res p -> get es p = Some e -> In d (en_deps e) -> In (fst d) seen \/ In d queue }.
Lemma deps_loop_inv : forall es start fuel queue seen names res r, deps_loop fuel es queue seen names res = Some r -> deps_inv es start queue seen names res -> exists seen' names', deps_inv es start [] seen' names' r.
Proof.
  intros es start fuel. induction fuel as [|n IH]; intros queue seen names res r H I; [discriminate|]. cbn [deps_loop] in H. destruct queue as [|d queue]; [injection H as <-; eauto|].
  destruct I as [I1 I2 I3 I4 I5 I6 I7 I8 I9]. pose proof (I1 d (or_introl eq_refl)) as KE.
  destruct (mem (fst d) seen) eqn:M.
  { apply mem_iff in M. apply (IH _ _ _ _ _ H). split; auto.
    - intros x I. apply I1. now right.
    - intros x I. destruct (I8 x I) as [X|[<-|X]]; auto.
    - intros p e x A B C. destruct (I9 p e x A B C) as [X|[<-|X]]; auto. }
  assert (NS : ~ In (fst d) seen) by (rewrite <- mem_iff; congruence).
  assert (NL : ~ listed res (fst d)) by auto.
  assert (SKIP : covered es res (fst d) -> deps_inv es start queue (fst d :: seen) names res).
  { intros CV. split; auto.
    - intros x I. apply I1. now right.
    - intros p L. right. auto.
    - intros p [<-|I]; auto.
    - intros x I. destruct (I8 x I) as [X|[<-|X]]; [left; now right|left; now left|auto].
    - intros p e x A B C. destruct (I9 p e x A B C) as [X|[<-|X]]; [left; now right|left; now left|auto]. }
  assert (ADD : forall nm q2, (forall x, named es (fst d) x <-> nm = Some x) -> (forall x, nm = Some x -> ~ In x names) ->
      (forall e, get es (fst d) = Some e -> incl (en_deps e) q2) -> (forall x, In x q2 -> exists e, get es (fst d) = Some e /\ In x (en_deps e)) ->
      deps_inv es start (queue ++ q2) (fst d :: seen) (match nm with Some x => x :: names | None => names end) (res ++ [d])).
  { intros nm q2 NM NN Q1 Q2. split.
    - intros x I. apply in_app_iff in I. destruct I as [I|I]; [apply kept_app; apply I1; now right|]. destruct (Q2 _ I) as (e & G & I'). eapply ke_step; [apply kept_app; exact KE| |exact G|exact I']. apply in_app_iff. right. now left.
    - intros x I. apply in_app_iff in I. apply kept_app. destruct I as [I|[<-|[]]]; auto.
    - rewrite map_app. cbn. now apply nodup_snoc.
    - intros p L. apply listed_app in L. destruct L as [L| ->]; [right; auto|now left].
    - intros p [<-|I]; [left; apply listed_app; auto|apply covered_app; auto].
    - intros x. assert (X : (exists q, listed (res ++ [d]) q /\ named es q x) <-> In x names \/ nm = Some x).
      { rewrite I6, <- NM. split.
        - intros (q & L & N). apply listed_app in L. destruct L as [L| ->]; eauto.
        - intros [(q & L & N)|N]; [exists q|exists (fst d)]; rewrite listed_app; auto. }
      rewrite X. destruct nm as [y|]; cbn; intuition congruence.
    - intros p q x Lp Lq Np Nq. apply listed_app in Lp, Lq. destruct Lp as [Lp| ->], Lq as [Lq| ->]; auto.
      + eapply I7; eauto.
      + exfalso. apply (NN x); [now apply NM|]. apply I6. eauto.
      + exfalso. apply (NN x); [now apply NM|]. apply I6. eauto.
    - intros x I. rewrite in_app_iff. destruct (I8 x I) as [X|[<-|X]]; [left; now right|left; now left|auto].
    - intros p e x L G I. rewrite in_app_iff. apply listed_app in L. destruct L as [L| ->]; [|right; right; apply (Q1 _ G _ I)].
      destruct (I9 p e x L G I) as [X|[<-|X]]; [left; now right|left; now left|auto]. }
  destruct (get es (fst d)) as [e|] eqn:G.
  - assert (Q1 : forall e0, Some e = Some e0 -> incl (en_deps e0) (en_deps e)) by (intros e0 [= <-] z Z; exact Z).
    assert (Q2 : forall x, In x (en_deps e) -> exists e0, Some e = Some e0 /\ In x (en_deps e0)) by (intros x I; exists e; auto).
    destruct (en_name e) as [x|] eqn:EN.
    + destruct (mem x names) eqn:MX.
      * apply (IH _ _ _ _ _ H). apply SKIP. apply mem_iff in MX. apply I6 in MX. destruct MX as (q & L & N). right. exists q, x. split; auto. split; auto. exists e. auto.
      * apply (IH _ _ _ _ _ H). apply (ADD (Some x) (en_deps e)); auto.
        { intros y. split; [intros (e' & A & B); congruence|intros [= <-]; exists e; auto]. }
        { intros y [= <-] I. apply mem_iff in I. congruence. }
    + apply (IH _ _ _ _ _ H). apply (ADD None (en_deps e)); auto; [|discriminate].
      intros y. split; [intros (e' & A & B); congruence|discriminate].
  - apply (IH _ _ _ _ _ H). rewrite <- (app_nil_r queue). apply (ADD None []); try discriminate; [|intros x []].
    intros y. split; [intros (e' & A & B); congruence|discriminate].
Qed.
Lemma deps_start_inv : forall es start, deps_inv es start start [] [] [].
Proof.
  intros es start. split; try (intros; contradiction); auto.
  - intros d I. now constructor.
  - constructor.
  - intros x. split; [intros []|intros (q & [] & _)].
Qed.
Lemma kept_is_edge : forall es start res d, kept_edge es start res d -> edge es start d.
Proof. intros es start res d H. induction H; [now constructor|eapply ed_step; eauto]. Qed.
