(** Which projects are read back after being written. *)
From Coq Require Import Sorted.
From Verif Require Import Base Name RawNames Artifact Stored Markdown SpecMarkdown MarkdownFacts SpecMdExact Load.

(** In each markdown file of [arts] the artifacts, in the order of their names, survive. *)
Definition md_survive (prefix : str) (style : md_attrs) (arts : list art_im) : Prop :=
  forall f, art_type_of f = Some TMd -> (exists a, In a arts /\ im_file a = f) ->
    prefix_ok (plain_style style) prefix /\ (forall x, style = CodeBlock (Some x) -> ~ In 10%N x) /\
    forall l, (forall a, In a l <-> In a arts /\ im_file a = f) -> NoDup l ->
      StronglySorted (fun a b => name_leb (im_name a) (im_name b) = true) l -> accepted_survives l.
