(** What a printed time series should be: one entry for every query, in order, made from that
    query's view of the graph. *)
From Coq Require Import List.
Import ListNotations.

(** Entries are (query, the query whose view of the graph was used). *)
Definition own_views (db : list (nat * option nat)) : Prop := forall q v, In (q, v) db -> v = Some q.
Definition queries (db : list (nat * option nat)) : list nat := map fst db.
