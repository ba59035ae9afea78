{
 "n002": [
  "C02_real_imaginary"
 ],
 "n003": [
  "C02_real_imaginary"
 ],
 "n055": [
  "C69_sum",
  "C69_superposition"
 ],
 "n058": [
  "C69_sum",
  "C69_superposition"
 ],
 "n059": [
  "C69_sum"
 ],
 "n061": [
  "C69_history"
 ],
 "n121": [
  "C45_laws"
 ],
 "m015": [
  "C27_fix"
 ],
 "m078": [
  "C28_set_random"
 ],
 "ag15": [
  "C94_pairs"
 ]
}