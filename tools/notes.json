{
 "C24": {"status": "proved", "note": "Exact characterisation: associativity holds iff there is no shadow conflict; the unconditional claim is refuted by C24_associativity_refuted."}
}
