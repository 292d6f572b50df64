{
 "extra": [
  {
   "id": "H01",
   "definition": "Matrix.v: Definition mult (and the products in Filter.v: predict)",
   "edit": "A (P A') computed instead of (A P) A'",
   "claim_broken": "the order in which products are associated is part of the bit-level result",
   "theorems_failed": [],
   "theorems_tightened": [
    "C63 added: bit-level description of predict/control/correct with the association order; the mutant then fails there"
   ]
  },
  {
   "id": "H02",
   "definition": "Matrix.v: is_valid",
   "edit": "comparison of the buffer length with the shape weakened",
   "claim_broken": "is_valid tells whether the buffer is large enough",
   "theorems_failed": [],
   "theorems_tightened": [
    "C61 added: shape queries and is_valid"
   ]
  },
  {
   "id": "H03",
   "definition": "Matrix.v: cholesky (its result false), seen through C63_cholesky, C63_correct, C63_correct_nonlinear",
   "edit": "by hand, on paper: a refused factorisation leaves something else in the buffer (a further column written, or the refused pivot not scaled)",
   "claim_broken": "what a refused correction leaves in the factorisation buffer is determined bit by bit",
   "theorems_failed": [],
   "theorems_tightened": [
    "SpecBits.b_no_factor, used by those theorems: it only said that some pivot is refused; it now also fixes every element of the buffer"
   ]
  }
 ],
 "by_id": {
  "M45": [
   "not caught at the commit then tested; C46_diagonal_partial (after a true result every diagonal entry is positive or NaN) was added since and fails under this edit"
  ],
  "P12": [
   "none: an update of the world, so it is C115 (erasure to the crash-free model, usability, quiet runs) that fails, not C116, which speaks about one call on a filter"
  ],
  "P11": [
   "none: run_catch is not part of C117's statement (one call); C115 and C118 fail"
  ]
 }
}