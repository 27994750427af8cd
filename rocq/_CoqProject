-Q theories Verif
theories/Base.v
theories/Spec.v
theories/Eps.v
theories/Chain.v
theories/ChainProofs.v
theories/ChainProofs2.v
theories/Density2.v
theories/MPO.v
theories/Multi.v
theories/Eps2.v
theories/Init.v
theories/LinAlg.v
theories/Struct.v
theories/Factor.v
theories/Canon.v
theories/Trunc.v
theories/Threads.v
theories/Tangent.v
theories/Tangent2.v
theories/Tdvp.v
theories/TdvpProofs.v
theories/TdvpProofs2.v
theories/TdvpProofs3.v
theories/Steps.v
theories/Svd.v
theories/Split.v
theories/Expand.v
theories/TwoSite.v
theories/Heff.v
theories/Heff2.v
theories/Schedule.v
theories/Drivers.v
theories/Krylov.v
theories/Uniform.v
theories/BTangent.v
theories/UTdvp.v
theories/UTdvpL.v
theories/Block.v
theories/UCanon.v
theories/UAlign.v
theories/SwCanon.v
theories/Sandwich.v
theories/Persist.v
theories/LineSearch.v
theories/Witness.v
theories/BMix.v
theories/SwTdvp.v
theories/SwTdvpProofs.v
theories/SwTdvpProofs3.v
theories/SwBulk.v
theories/Diss.v
theories/DissProofs.v
theories/MPOEff.v
theories/P01_Expectation.v
theories/P02_Correlations.v
theories/P03_Init.v
theories/P04_Canonical.v
theories/P05_Threads.v
theories/P06_Factor.v
theories/P07_Tdvp.v
theories/P08_Steps.v
theories/P09_Split.v
theories/P10_Expand.v
theories/P11_Heff.v
theories/P12_Schedule.v
theories/P13_Drivers.v
theories/P14_Krylov.v
theories/P15_Uniform.v
theories/P16_Block.v
theories/P17_UCanon.v
theories/P18_Sandwich.v
theories/P19_Persist.v
theories/P20_LineSearch.v
theories/P21_UTdvp.v
theories/P22_SwCanon.v
theories/P23_SwTdvp.v
theories/P24_Diss.v
theories/P25_MPO.v
theories/P26_Align.v
theories/Sweep.v
theories/SweepSolver.v
theories/P27_Sweep.v
theories/EckartYoung.v
theories/P28_Optimal.v
theories/UString.v
theories/P29_Strings.v
theories/SwOverlap.v
theories/P30_SwOverlap.v
theories/OvTangent.v
theories/ETangent.v
theories/BOverlap.v
theories/P31_OvTangent.v
theories/P32_ETangent.v
theories/P33_BOverlap.v
theories/BGF.v
theories/P34_BGF.v
theories/CorrLen.v
theories/P35_CorrLen.v
theories/FindGround.v
theories/P36_FindGround.v
theories/ExRetry.v
theories/P37_ExRetry.v
