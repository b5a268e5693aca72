{
 "C57": {
  "note": "Exact real arithmetic; rounding is not modelled."
 },
 "C59": {
  "note": "Exact real arithmetic; rounding is not modelled."
 },
 "C61": {
  "note": "Exact real arithmetic; rounding is not modelled."
 },
 "C60": {
  "note": "Exact real arithmetic. Theorems about distribution functions and moments take the special functions (gamma, erf, ...) as parameters assumed exact in a hypothesis; an instance meeting the hypotheses is exhibited. Theorems over impl_special speak of the crate's own implementations."
 },
 "C63": {
  "note": "Exact real arithmetic. Theorems about distribution functions and moments take the special functions (gamma, erf, ...) as parameters assumed exact in a hypothesis; an instance meeting the hypotheses is exhibited. Theorems over impl_special speak of the crate's own implementations."
 },
 "C69": {
  "note": "Exact real arithmetic. Theorems about distribution functions and moments take the special functions (gamma, erf, ...) as parameters assumed exact in a hypothesis; an instance meeting the hypotheses is exhibited. Theorems over impl_special speak of the crate's own implementations."
 },
 "C70": {
  "note": "Exact real arithmetic. Theorems about distribution functions and moments take the special functions (gamma, erf, ...) as parameters assumed exact in a hypothesis; an instance meeting the hypotheses is exhibited. Theorems over impl_special speak of the crate's own implementations."
 },
 "C71": {
  "note": "Exact real arithmetic. Theorems about distribution functions and moments take the special functions (gamma, erf, ...) as parameters assumed exact in a hypothesis; an instance meeting the hypotheses is exhibited. Theorems over impl_special speak of the crate's own implementations."
 },
 "C72": {
  "note": "Exact real arithmetic. Theorems about distribution functions and moments take the special functions (gamma, erf, ...) as parameters assumed exact in a hypothesis; an instance meeting the hypotheses is exhibited. Theorems over impl_special speak of the crate's own implementations."
 },
 "C73": {
  "note": "Exact real arithmetic. Theorems about distribution functions and moments take the special functions (gamma, erf, ...) as parameters assumed exact in a hypothesis; an instance meeting the hypotheses is exhibited. Theorems over impl_special speak of the crate's own implementations."
 },
 "C74": {
  "note": "Exact real arithmetic. Theorems about distribution functions and moments take the special functions (gamma, erf, ...) as parameters assumed exact in a hypothesis; an instance meeting the hypotheses is exhibited. Theorems over impl_special speak of the crate's own implementations."
 },
 "C54": {
  "note": "Both overflow-checked and wrapping builds are covered."
 },
 "C55": {
  "note": "Exact real arithmetic; rounding is not modelled. The claim at x=0 is shown false (C55_cdf_zero_refuted)."
 },
 "C56": {
  "note": "Exact real arithmetic; rounding is not modelled. Behaviour outside the stated domain is shown by the _refuted, _overflow and _large_n theorems."
 },
 "C58": {
  "note": "Exact real arithmetic; rounding is not modelled. random is a function of the uniform number drawn."
 },
 "C62": {
  "note": "The property is a list of defects; each theorem is the corresponding counterexample, mostly for all inputs of the kind."
 },
 "C64": {
  "note": "Exact real arithmetic with the crate's coefficient tables. Accuracy of erf, erfc, erfinv and erfcinv is proved against the error function defined as an integral."
 },
 "C65": {
  "note": "Exact real arithmetic with the crate's coefficients; the accuracy bound is that of the truncated expansion, rounding is not included."
 },
 "C75": {
  "note": "Exact real arithmetic with the crate's coefficient tables; the accuracy theorems bound the approximation error of the Lanczos formula, the series and the continued fraction, rounding is not included."
 },
 "C76": {
  "note": "Exact real arithmetic; the accuracy theorems bound the approximation error, rounding is not included."
 },
 "C77": {
  "note": "Exact real arithmetic; truncation error only. The branches 1/2<z<1 and z<-1 have no general accuracy theorem (z<-1 is covered for the Student t arguments in C74)."
 },
 "C78": {
  "note": "Exact real arithmetic; rounding is not modelled. The refuted companions give inputs outside the stated domain on which the code panics or returns something else."
 },
 "C79": {
  "note": "Exact real arithmetic; rounding is not modelled. The refuted companions give inputs outside the stated domain on which the code panics or returns something else."
 },
 "C80": {
  "note": "Exact real arithmetic; rounding is not modelled. The refuted companions give inputs outside the stated domain on which the code panics or returns something else."
 },
 "C81": {
  "note": "Exact real arithmetic; rounding is not modelled. The refuted companions give inputs outside the stated domain on which the code panics or returns something else."
 },
 "C82": {
  "note": "About f64 itself: IEEE-754 binary64 with rounding to nearest even. The underflow term is explicit; overflow is excluded by the hypothesis that the result is finite."
 },
 "C83": {
  "note": "About f64 itself. The bounds are relative to |L||U||x|, the standard form of backward error analysis; the growth of L and U is not bounded in terms of A, since dec_lu does not choose the largest pivot in all cases."
 },
 "C84": {
  "note": "Solutions and derivatives over the reals; the equality of both forms and the panics hold for every element type."
 }
}